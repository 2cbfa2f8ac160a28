(** The writer emits the encoding of the emitted struct. *)
From Coq Require Import ZifyBool ZifyNat.
From Verif Require Import Read Write WSpec Typing BytesFacts ProgFacts ReadFacts ReadMore Safety.

(** ** Objects *)

Lemma sequence_all {A B} (f : A -> option B) (g : A -> B) l :
  Forall (fun x => f x = Some (g x)) l -> sequence (map f l) = Some (map g l).
Proof. induction 1 as [|x l Hx H IH]; simpl; auto. rewrite Hx, IH. auto. Qed.

Lemma store_scalar_wire c s z : is_host_order c = true ->
  store_scalar (c_host c) s z = wire_scalar (c_wire c) s z.
Proof.
  unfold is_host_order, store_scalar, mem_enc, wire_scalar.
  destruct (c_host c), (c_wire c); simpl; intros; try discriminate; auto.
Qed.

Lemma rev_one {A} (l : list A) : length l = 1%nat -> rev l = l.
Proof. destruct l as [|a [|]]; simpl; intros; auto; discriminate. Qed.

Lemma store_scalar_one c s z : ssize s = 1%nat ->
  store_scalar (c_host c) s z = wire_scalar (c_wire c) s z.
Proof.
  intros Hs. unfold store_scalar, mem_enc, wire_scalar.
  assert (H : rev (le_enc (ssize s) (sc_bits s z)) = le_enc (ssize s) (sc_bits s z))
    by (apply rev_one; rewrite le_enc_length; auto).
  destruct (c_host c), (c_wire c); rewrite ?H; auto.
Qed.

Lemma store_swapped_wire c s z : is_host_order c = false ->
  store_swapped (c_host c) s z = wire_scalar (c_wire c) s z.
Proof.
  unfold is_host_order, store_swapped, wire_scalar. intros H.
  rewrite mem_enc_byteswap. unfold mem_enc.
  destruct (c_host c), (c_wire c); simpl in *; try discriminate; auto.
Qed.

Lemma byte_vals l : Forall (fun x => exists z, x = VZ z /\ byte_ok z) l ->
  exists zs, l = map VZ zs /\ Forall byte_ok zs.
Proof.
  induction 1 as [|x l (z & -> & Hz) H (zs & -> & IH)].
  - exists []; auto.
  - exists (z :: zs). auto.
Qed.

Lemma store_str h n v : ct_ok (TFixStr n) v ->
  store h (TFixStr n) v = Some (enc_ct Little (TFixStr n) v) /\
  forall o, enc_ct o (TFixStr n) v = enc_ct Little (TFixStr n) v.
Proof.
  destruct v as [|l| | | | |]; simpl; try tauto. intros [H1 H2].
  destruct (byte_vals _ H2) as (zs & -> & Hz). rewrite map_length in H1.
  rewrite map_length, H1, Nat.eqb_refl.
  assert (chars_of (map VZ zs) = Some zs) as -> by (apply chars_of_iff; auto).
  rewrite map_map. split; auto. f_equal. apply map_ext_in. intros a Ha.
  rewrite Forall_forall in Hz. apply Z.mod_small, Hz, Ha.
Qed.

Lemma store_enc c t : is_host_order c = true -> forall v, ct_ok t v ->
  store (c_host c) t v = Some (enc_ct (c_wire c) t v).
Proof.
  intros Hh. induction t as [s|n t IH|n|w]; intros v Hv.
  - destruct v; simpl in *; try tauto. rewrite store_scalar_wire; auto.
  - destruct v as [|l| | | | |]; simpl in *; try tauto. destruct Hv as [<- Hv].
    rewrite Nat.eqb_refl.
    rewrite (sequence_all _ (enc_ct (c_wire c) t)).
    + rewrite flat_map_concat_map. auto.
    + eapply Forall_impl; [|exact Hv]. auto.
  - destruct (store_str (c_host c) n v Hv) as [-> H]. rewrite (H (c_wire c)). auto.
  - destruct v; simpl in *; try tauto. destruct Hv as [-> _].
    rewrite Nat.eqb_refl, store_scalar_wire; auto.
Qed.

Lemma foreign_enc c t : is_host_order c = false -> ct_wf t = true -> forall v, ct_ok t v ->
  exists chs, foreign_chunks (c_host c) t v = Some chs /\ concat chs = enc_ct (c_wire c) t v.
Proof.
  intros Hh. induction t as [s|n t IH|n|w]; intros Hw v Hv.
  - destruct v; simpl in *; try tauto. eexists; split; [reflexivity|]. simpl. rewrite app_nil_r.
    destruct (Nat.ltb_spec 1 (ssize s)).
    + apply store_swapped_wire; auto.
    + apply store_scalar_one. lia.
  - destruct v as [|l| | | | |]; simpl in *; try tauto. destruct Hv as [<- Hv].
    apply andb_true_iff in Hw. destruct Hw as [_ Hw].
    rewrite Nat.eqb_refl.
    assert (exists chs, sequence (map (foreign_chunks (c_host c) t) l) = Some chs /\
              concat (concat chs) = flat_map (enc_ct (c_wire c) t) l) as (chs & -> & H).
    { clear - IH Hw Hv. induction Hv as [|x l Hx Hv (chs & H1 & H2)]; simpl.
      - exists []; auto.
      - destruct (IH Hw x Hx) as (ch & -> & Hc). rewrite H1. exists (ch :: chs). split; auto.
        simpl. rewrite concat_app. congruence. }
    eauto.
  - destruct (store_str (c_host c) n v Hv) as [H1 H2]. cbn [foreign_chunks]. rewrite H1, (H2 (c_wire c)).
    eexists; split; [reflexivity|]. simpl. apply app_nil_r.
  - apply ffmt_pos in Hw. destruct v; simpl in *; try tauto. destruct Hv as [-> _].
    rewrite Nat.eqb_refl. eexists; split; [reflexivity|]. cbn [concat]. rewrite app_nil_r.
    destruct (Nat.ltb_spec 1 w).
    + apply store_swapped_wire; auto.
    + apply store_scalar_one. simpl. lia.
Qed.

Lemma put_prefix_ok bs n : (n <= length bs)%nat ->
  wmem (put_prefix bs n) = (Ok tt, firstn n bs).
Proof.
  intros H. unfold put_prefix. destruct (Nat.ltb_spec (length bs) n); [lia|].
  simpl. rewrite app_nil_r. auto.
Qed.

Lemma wfor_put_ok chs : wmem (wfor chs put) = (Ok tt, concat chs).
Proof. unfold put. apply wmem_wfor_put. Qed.

Lemma write_const_ok c t n v : ct_wf t = true ->
  match t with TScalar _ | TFloat _ => (n <= csize t)%nat | _ => n = csize t end -> ct_ok t v ->
  wmem (write_const c t n v) = (Ok tt, firstn n (enc_ct (c_wire c) t v)).
Proof.
  intros Hw Hn Hv. pose proof (enc_ct_length (c_wire c) t v Hv) as Hl.
  assert (Hn' : (n <= csize t)%nat) by (destruct t; simpl in *; lia).
  unfold write_const. destruct (is_host_order c) eqn:Hh.
  - rewrite store_enc; auto. apply put_prefix_ok. lia.
  - destruct t as [s|m t|m|w].
    + destruct v; simpl in Hv; try tauto. rewrite store_swapped_wire; auto.
      apply put_prefix_ok. rewrite <- Hl in Hn'. exact Hn'.
    + destruct (foreign_enc c (TArr m t) Hh Hw v Hv) as (chs & -> & Hc).
      rewrite wfor_put_ok, Hc, firstn_all2; auto. lia.
    + destruct (store_str (c_host c) m v Hv) as [-> He]. rewrite (He (c_wire c)).
      apply put_prefix_ok. rewrite <- (He (c_wire c)). lia.
    + destruct v; simpl in Hv; try tauto. destruct Hv as [-> _].
      rewrite Nat.eqb_refl, store_swapped_wire; auto.
      apply put_prefix_ok. rewrite <- Hl in Hn'. exact Hn'.
Qed.

Lemma write_var_ok c elt l : ct_wf elt = true -> Forall (ct_ok elt) l ->
  wmem (write_var c elt l) = (Ok tt, flat_map (enc_ct (c_wire c) elt) l).
Proof.
  intros Hw Hv. unfold write_var. destruct (is_host_order c) eqn:Hh.
  - rewrite (sequence_all _ (enc_ct (c_wire c) elt)).
    + rewrite flat_map_concat_map. destruct (c_cx c).
      * apply wfor_put_ok.
      * simpl. rewrite app_nil_r. auto.
    + eapply Forall_impl; [|exact Hv]. intros a. apply store_enc; auto.
  - assert (exists chs, sequence (map (foreign_chunks (c_host c) elt) l) = Some chs /\
              concat (concat chs) = flat_map (enc_ct (c_wire c) elt) l) as (chs & -> & H).
    { induction Hv as [|x l Hx Hv (chs & H1 & H2)]; simpl.
      - exists []; auto.
      - destruct (foreign_enc c elt Hh Hw x Hx) as (ch & -> & Hc). rewrite H1.
        exists (ch :: chs). split; auto. simpl. rewrite concat_app. congruence. }
    rewrite wfor_put_ok, H. auto.
Qed.

Lemma conv_in s z : sc_in s (conv s z) = true.
Proof.
  destruct s as [w [|]|]; simpl.
  - pose proof (Z.mod_pos_bound z (pow256 w) (pow256_pos w)).
    destruct (Z.ltb_spec (2 * (z mod pow256 w)) (pow256 w)); lia.
  - pose proof (Z.mod_pos_bound z (pow256 w) (pow256_pos w)). lia.
  - destruct (z =? 0); auto.
Qed.

Lemma ct_okb_ok t : forall v, ct_okb t v = true -> ct_ok t v.
Proof.
  induction t as [s|n t IH|n|w]; intros v; destruct v; simpl; try discriminate; auto.
  - intros H. apply andb_true_iff in H. destruct H as [H1 H2]. apply Nat.eqb_eq in H1.
    split; auto. rewrite forallb_forall in H2. apply Forall_forall. auto.
  - intros H. apply andb_true_iff in H. destruct H as [H1 H2]. apply Nat.eqb_eq in H1.
    split; auto. rewrite forallb_forall in H2. apply Forall_forall. intros x Hx.
    apply H2 in Hx. destruct x; try discriminate. exists z. split; auto. unfold byte_ok. lia.
  - intros H. apply andb_true_iff in H. destruct H as [H1 H2]. apply Nat.eqb_eq in H1.
    split; auto. lia.
Qed.

Lemma str_ok_ct n cs : str_ok n cs = true -> ct_ok (TFixStr n) (VSeq (map VZ cs)).
Proof.
  unfold str_ok. intros H. apply andb_true_iff in H. destruct H as [H _].
  apply andb_true_iff in H. destruct H as [H1 H2]. apply Nat.eqb_eq in H1. simpl.
  rewrite map_length. split; auto. rewrite Forall_map. rewrite forallb_forall in H2.
  apply Forall_forall. intros x Hx. exists x. split; auto. apply H2 in Hx. unfold byte_ok. lia.
Qed.

Lemma fenc_range w n : 0 <= fenc w n < pow256 w.
Proof.
  unfold fenc. destruct (ffmt w) as [[[eb mb] u]|] eqn:F; [|pose proof (pow256_pos w); lia].
  cbv zeta. set (a := Z.abs n). set (l := Z.max (Z.log2 a - mb) u).
  assert (Hu : 0 <= u /\ 0 <= mb /\ 0 <= eb /\ pow256 w = 2 * 2 ^ (mb + eb)).
  { do 4 (destruct w as [|w]; [discriminate F|]).
    destruct w as [|w]; [inversion F; subst; repeat split; try lia; reflexivity|].
    do 3 (destruct w as [|w]; [discriminate F|]).
    destruct w as [|w]; [inversion F; subst; repeat split; try lia; reflexivity|discriminate F]. }
  destruct Hu as (Hu & Hm & He & ->). assert (Hl : u <= l) by lia.
  assert (0 < 2 ^ mb) by (apply Z.pow_pos_nonneg; lia). assert (0 < 2 ^ eb) by (apply Z.pow_pos_nonneg; lia).
  assert (0 < 2 ^ l) by (apply Z.pow_pos_nonneg; lia). assert (0 <= a) by lia.
  assert (Q : 0 <= a / 2 ^ l) by (apply Z.div_pos; lia).
  set (b := (2 ^ l <? _) || _). clearbody b. set (q' := if b then a / 2 ^ l + 1 else a / 2 ^ l).
  assert (Q' : 0 <= q') by (unfold q'; destruct b; lia). clearbody q'.
  rewrite Z.pow_add_r by lia. destruct (n <? 0); nia.
Qed.

Lemma pinned_ok t n k w : constr_ok (FFixed t n) k = true -> pinned t k = Some w -> ct_ok t w.
Proof.
  destruct t, k; simpl; try discriminate; intros Hk H.
  - destruct o; inversion H; subst. simpl. apply conv_in.
  - destruct neg; inversion H; subst. apply (ct_okb_ok (TArr n0 t)). exact Hk.
  - destruct neg; inversion H; subst. apply str_ok_ct; auto.
  - destruct o; inversion H; subst. simpl. split; auto. apply fenc_range.
Qed.

Lemma frozen_pinned t n k : frozen_value (FFixed t n) k = pinned t k.
Proof. destruct t, k; simpl; auto; destruct o; auto. Qed.

(** ** Outputs of a writing step: all of [enc] on success, a prefix of it on
    failure, nothing if the step is atomic. *)

Definition good {E A} (ub : Prop) (at_ : bool) (enc : list Z) (r : outcome E A * list Z) : Prop :=
  match fst r with
  | Ok _ => snd r = enc
  | Err _ => (exists tail, enc = snd r ++ tail) /\ (at_ = true -> snd r = [])
  | UB => ub /\ (exists tail, enc = snd r ++ tail) /\ (at_ = true -> snd r = [])
  | _ => False
  end.

Lemma good_check {E B} ub a enc (p : wprog E unit) (f : unit -> wprog E B) :
  good ub true [] (wmem p) -> good ub a enc (wmem (f tt)) -> good ub a enc (wmem (wbind p f)).
Proof.
  rewrite wmem_bind. unfold good. destruct (wmem p) as [[[]|e| | |] o1]; simpl; try tauto.
  - intros -> H. destruct (wmem (f tt)) as [o2 out2]. simpl. auto.
  - intros [_ H] _. rewrite (H eq_refl). split; auto. exists enc; auto.
  - intros (H0 & _ & H) _. rewrite (H eq_refl). split; auto. split; auto. exists enc; auto.
Qed.

Lemma good_seq {E B} ub a e1 e2 (p : wprog E unit) (f : unit -> wprog E B) :
  good ub a e1 (wmem p) -> good ub false e2 (wmem (f tt)) ->
  good ub false (e1 ++ e2) (wmem (wbind p f)).
Proof.
  rewrite wmem_bind. unfold good. destruct (wmem p) as [[[]|e| | |] o1]; simpl; try tauto.
  - intros -> H. destruct (wmem (f tt)) as [[x|e| | |] out2]; simpl in *; try tauto.
    + congruence.
    + destruct H as [[tl ->] _]. split; [|discriminate]. exists tl. apply app_assoc.
    + destruct H as (H0 & [tl ->] & _). split; auto. split; [|discriminate].
      exists tl. apply app_assoc.
  - intros [[tl ->] _] _. split; [|discriminate]. exists (tl ++ e2). symmetry; apply app_assoc.
  - intros (H0 & [tl ->] & _) _. split; auto. split; [|discriminate].
    exists (tl ++ e2). symmetry; apply app_assoc.
Qed.

Lemma good_maperr {E E' A} ub a enc (g : E -> E') (p : wprog E A) :
  good ub a enc (wmem p) -> good ub a enc (wmem (wmaperr g p)).
Proof. rewrite wmem_maperr. destruct (wmem p) as [[| | | |] out]; auto. Qed.

Lemma good_weaken {E A} ub enc a (r : outcome E A * list Z) :
  good ub a enc r -> good ub false enc r.
Proof.
  unfold good. destruct (fst r); auto.
  - intros [H _]. split; auto. discriminate.
  - intros (H0 & H & _). split; auto. split; auto. discriminate.
Qed.

Lemma good_wfor {E A} ub (l : list A) (f : A -> wprog E unit) (enc : A -> list Z) :
  Forall (fun x => good ub false (enc x) (wmem (f x))) l ->
  good ub false (flat_map enc l) (wmem (wfor l f)).
Proof.
  induction 1 as [|x l Hx H IH]; simpl; [unfold good; simpl; auto|].
  eapply good_seq; eauto.
Qed.

Lemma good_wcheck ub t k v : constr_ok t k = true -> has_ty t v -> (tame t k = true \/ ub) ->
  good ub true [] (wmem (wcheck k v)).
Proof.
  intros Hk Hv Hu. destruct (check_typed t k v Hk Hv) as [H1 H2]. unfold wcheck.
  destruct (check k v); unfold good; simpl; auto.
  - split; auto. exists []; auto.
  - split; [destruct Hu as [Hu|]; auto; exfalso; apply H2; auto|]. split; auto. exists []; auto.
Qed.

(** ** Derived values *)

Lemma sized_by_target id t v : has_ty t v ->
  (ident_is (len_target t) id = true ->
     exists n, sized_by id t v = Some n /\ val_size v = Some (Z.of_nat n)) /\
  (ident_is (len_target t) id = false -> sized_by id t v = None).
Proof.
  destruct t as [|elt [i|] b| | |fs recsz [i|] b| |]; simpl; try (split; [discriminate|auto; fail]);
    destruct v; simpl; try tauto; intros _; destruct (String.eqb i id); split; try discriminate; eauto.
Qed.

Lemma implied_claim c G id t v : typed_ty G t = true -> has_ty t v ->
  implied c id t v = Some (hd_error (claim c id t v)) /\ (length (claim c id t v) <= 1)%nat.
Proof.
  intros Ht Hv. destruct (sized_by_target id t v Hv) as [H1 H2].
  unfold implied. destruct (ident_is (len_target t) id) eqn:El.
  - destruct (H1 eq_refl) as (n & Hn & ->).
    assert (claim c id t v = [Z.of_nat n]) as ->; [|auto].
    destruct t; try discriminate; unfold claim; rewrite Hn; auto.
  - destruct t as [|elt l b| | |fs recsz l b| |[i s cases| |] al];
      try (unfold claim; rewrite (H2 eq_refl); simpl; auto; fail).
    cbn [disc_target ident_is]. destruct v; try (simpl in Hv; tauto). cbn [claim].
    destruct (String.eqb i id); simpl; auto.
    cbn [typed_ty guide_typed] in Ht. apply andb_true_iff in Ht. destruct Ht as [Ht _].
    destruct (tlookup G i) as [[[s'| | |]| | | | | |]|]; try discriminate.
    apply andb_true_iff in Ht. destruct Ht as [_ Ht]. apply Nat.eqb_eq in Ht.
    simpl in Hv. apply has_alt_nth in Hv. destruct Hv as (t' & k' & Hn & _).
    assert (i0 < a_len al)%nat.
    { clear - Hn. revert i0 Hn. induction al; intros [|j] H; simpl in *; try discriminate; try lia.
      apply IHal in H. lia. }
    unfold value_at. destruct (nth_error cases i0) as [[s1 z]|] eqn:En.
    + simpl. auto.
    + apply nth_error_None in En. lia.
Qed.

Lemma derive_fold_claims c id fs : forall G vs d, typed_fields G fs = true -> has_fields fs vs ->
  derive_fold c id fs vs d = Some (fold_left record (claims c id fs vs) d).
Proof.
  induction fs; intros G [|v vs] d Ht Hv; simpl in *; try tauto.
  apply andb_true_iff in Ht. destruct Ht as [Ht T3]. apply andb_true_iff in Ht. destruct Ht as [T1 T2].
  destruct Hv as [V1 V2]. destruct (implied_claim c G id t v T1 V1) as [-> Hl].
  destruct (claim c id t v) as [|z [|]]; simpl in *; try lia; eapply IHfs; eauto.
Qed.

Lemma record_disagreed l : forall z b, d_agreed (fold_left record l (mkD z b false)) = false.
Proof.
  induction l; intros z b; simpl; auto. unfold record. simpl. destruct (b && _); apply IHl.
Qed.

Lemma record_agreed l : forall z,
  (d_agreed (fold_left record l (mkD z true true)) = true <-> Forall (eq z) l) /\
  (Forall (eq z) l -> d_val (fold_left record l (mkD z true true)) = z).
Proof.
  induction l as [|a l IH]; intros z; simpl; [split; auto; split; auto|].
  unfold record at 2 4. simpl. destruct (Z.eqb_spec a z).
  - subst. simpl. destruct (IH z) as [I1 I2]. split.
    + rewrite I1. split; [intros; constructor; auto|]. intros H; inversion H; auto.
    + intros H; inversion H; auto.
  - simpl. rewrite record_disagreed. split.
    + split; [discriminate|]. intros H; inversion H; congruence.
    + intros H; inversion H; congruence.
Qed.

Lemma is_derived_cons id i t k fs : is_derived (FCons i t k fs) id =
  ident_is (len_target t) id || ident_is (disc_target t) id || is_derived fs id.
Proof.
  unfold is_derived. simpl.
  destruct (ident_is (len_target t) id), (ident_is (disc_target t) id),
    (is_length_derived fs id), (is_disc_derived fs id); auto.
Qed.

Lemma claim_target c G id t v : typed_ty G t = true -> has_ty t v ->
  (ident_is (len_target t) id || ident_is (disc_target t) id = true <-> claim c id t v <> []).
Proof.
  intros Ht Hv. destruct (implied_claim c G id t v Ht Hv) as [Hi _]. revert Hi. unfold implied.
  destruct (ident_is (len_target t) id) eqn:El.
  - destruct (sized_by_target id t v Hv) as [H1 _]. destruct (H1 El) as (n & _ & ->). simpl.
    intros H. split; auto. intros _ Hc. rewrite Hc in H. discriminate.
  - simpl. destruct (ident_is (disc_target t) id) eqn:Ed.
    + destruct t as [| | | | | |[] al]; try discriminate. destruct v; try (simpl in Hv; tauto).
      destruct (value_at c cases i); simpl; intros H; split; auto; try discriminate.
      intros _ Hc. rewrite Hc in H. discriminate.
    + intros H. split; [discriminate|]. destruct (claim c id t v); [congruence|discriminate].
Qed.

Lemma is_derived_claims c id fs : forall G vs, typed_fields G fs = true -> has_fields fs vs ->
  (is_derived fs id = true <-> claims c id fs vs <> []).
Proof.
  induction fs; intros G [|v vs] Ht Hv; try (simpl in *; tauto).
  - simpl. split; [discriminate|tauto].
  - rewrite is_derived_cons. cbn [typed_fields claims has_fields] in *.
    apply andb_true_iff in Ht. destruct Ht as [Ht T3]. apply andb_true_iff in Ht. destruct Ht as [T1 T2].
    destruct Hv as [V1 V2]. rewrite orb_true_iff, (claim_target c G id t v T1 V1), (IHfs _ vs T3 V2).
    split.
    + intros [H|H] Hc; apply app_eq_nil in Hc; tauto.
    + intros H. destruct (claim c id t v); [right; exact H|left; discriminate].
Qed.

(** ** Verified lengths *)

Lemma alts_target_nth al id : forall i t k, a_nth i al = Some (t, k) ->
  ident_is (len_target t) id = true -> alts_target al id = true.
Proof.
  induction al; intros [|i] t' k' Hn Ht; simpl in *; try discriminate.
  - inversion Hn; subst. rewrite Ht. auto.
  - rewrite (IHal _ _ _ Hn Ht). apply orb_true_r.
Qed.

Lemma cond_agrees_claim G seen e id w t v : covers seen e -> wf_ty seen t = true ->
  typed_ty G t = true -> has_ty t v ->
  cond_agrees e id w t v = Some (forallb (fun z => z =? w) (cond_claim e id t v)) /\
  (has_cond_obligation_of t id = false -> cond_claim e id t v = []).
Proof.
  intros Hc Hw Ht Hv. unfold cond_agrees, has_cond_obligation_of.
  destruct t as [| | | | |b p ids|g al]; try (simpl; auto; fail).
  - cbn [cond_target]. cbn [wf_ty] in Hw. apply andb_true_iff in Hw. destruct Hw as [Hw _].
    destruct (covers_lookups _ _ _ Hc Hw) as [args Ha].
    destruct v; try (simpl in Hv; tauto).
    + simpl. destruct (ident_is (len_target b) id); auto.
    + simpl in Hv. destruct (sized_by_target id b v Hv) as [H1 H2].
      cbn [cond_claim]. rewrite Ha. destruct (ident_is (len_target b) id).
      * destruct (H1 eq_refl) as (n & -> & ->). destruct (p args); simpl; split; auto; try discriminate.
        rewrite andb_true_r. auto.
      * rewrite (H2 eq_refl). destruct (p args); simpl; auto.
  - destruct v; try (simpl in Hv; tauto). cbn [cond_claim]. simpl in Hv.
    apply has_alt_nth in Hv. destruct Hv as (t & k & Hn & Hv). rewrite Hn.
    destruct (sized_by_target id t v Hv) as [H1 H2]. cbn [cond_target ident_is].
    destruct (ident_is (len_target t) id) eqn:El.
    + destruct (H1 eq_refl) as (n & -> & ->). simpl. rewrite andb_true_r. split; auto.
      rewrite (alts_target_nth _ _ _ _ _ Hn El). discriminate.
    + rewrite (H2 eq_refl). simpl. auto.
Qed.

Lemma verify_cond_claims e id w fs : forall G seen vs, covers (f_ids fs ++ seen) e ->
  wf_fields seen fs = true -> typed_fields G fs = true -> has_fields fs vs ->
  verify_cond e id w fs vs = Some (forallb (fun z => z =? w) (cond_claims e id fs vs)) /\
  (has_cond_obligation fs id = false -> cond_claims e id fs vs = []).
Proof.
  induction fs; intros G seen [|v vs] Hc Hw Ht Hv; try (simpl in *; tauto).
  - cbn [verify_cond cond_claims has_cond_obligation wf_fields typed_fields has_fields f_ids] in *.
    apply andb_true_iff in Hw. destruct Hw as [Hw W3]. apply andb_true_iff in Hw. destruct Hw as [W1 W2].
    apply andb_true_iff in Ht. destruct Ht as [Ht T3]. apply andb_true_iff in Ht. destruct Ht as [T1 T2].
    destruct Hv as [V1 V2].
    assert (Hc1 : covers seen e).
    { intros x Hx. apply Hc. simpl. right. apply in_or_app; auto. }
    destruct (cond_agrees_claim G seen e id w t v Hc1 W2 T1 V1) as [-> H1].
    destruct (IHfs ((id0, t) :: G) (id0 :: seen) vs) as [-> H2]; auto.
    { intros x Hx. apply Hc. simpl. apply in_app_or in Hx. simpl in Hx.
      destruct Hx as [Hx|[Hx|Hx]]; auto; right; apply in_or_app; auto. }
    split.
    + rewrite forallb_app. auto.
    + rewrite orb_false_iff. intros [G1 G2]. rewrite (H1 G1), (H2 G2). auto.
Qed.
