(** What a write puts out whatever user code answers. *)
From Coq Require Import ZifyBool ZifyNat.
From Verif Require Import UserSpec Typing BytesFacts ProgFacts ReadFacts ReadMore Safety.
From Verif Require Import WriteFacts WriteMain CallFacts.

(** Whatever is answered, the write calls are the first of [l], all of them if the
    program gets to the end; undefined behaviour only if [ub]. *)
Fixpoint uw (ub : Prop) {E A} (p : uprog E A) (l : list (list Z)) : Prop :=
  match p with
  | URet _ => l = []
  | UErr _ => True
  | UUB => ub
  | UStuck => False
  | URead _ _ _ | UAlloc _ _ => False
  | UWrite bs _ k => match l with b :: l' => b = bs /\ uw ub k l' | [] => False end
  | UNum _ _ k => forall z, uw ub (k z) l
  | UTest _ _ k => forall b, uw ub (k b) l
  | UCheck _ _ k => forall b, uw ub (k b) l
  end.

Lemma uw_bind (ub : Prop) {E A B} (p : uprog E A) (f : A -> uprog E B) l2 :
  (forall a, uw ub (f a) l2) -> forall l1, uw ub p l1 -> uw ub (ubind p f) (l1 ++ l2).
Proof.
  intros H. induction p; simpl; auto; try tauto.
  - intros l1 ->. apply H.
  - intros [|b l1]; [tauto|]. intros [-> F]. simpl. auto.
Qed.

Lemma uw_check (ub : Prop) {E A B} (p : uprog E A) (f : A -> uprog E B) l :
  uw ub p [] -> (forall a, uw ub (f a) l) -> uw ub (ubind p f) l.
Proof. intros H1 H2. apply (uw_bind ub p f l) with (l1 := []); auto. Qed.

Lemma uw_maperr (ub : Prop) {E E' A} (g : E -> E') (p : uprog E A) : forall l,
  uw ub p l -> uw ub (umaperr g p) l.
Proof. induction p; simpl; auto. intros [|b l]; [tauto|]. intros [-> F]. auto. Qed.

Lemma uw_for (ub : Prop) {E A} (l : list A) (f : A -> uprog E unit) (g : A -> list (list Z)) :
  Forall (fun x => uw ub (f x) (g x)) l -> uw ub (ufor l f) (flat_map g l).
Proof. induction 1; simpl; auto. apply uw_bind; auto. Qed.

(** No step fails or is without meaning. *)
Fixpoint wdone {E A} (p : wprog E A) : Prop :=
  match p with
  | WRet _ => True
  | WErr _ | WUB | WStuck => False
  | WWrite _ _ k => wdone k
  end.

Lemma uw_of_w (ub : Prop) {E A} (p : wprog E A) : forall l, wdone p -> follows p l -> uw ub (of_w p) l.
Proof.
  induction p; simpl; intros l D F; auto; try tauto.
  destruct l as [|b l]; [tauto|]. destruct F. auto.
Qed.

Lemma wdone_puts l : wdone (wfor l put).
Proof. induction l; simpl; auto. Qed.

Lemma wdone_prefix bs n : (n <= length bs)%nat -> wdone (put_prefix bs n).
Proof. intros H. unfold put_prefix. destruct (Nat.ltb_spec (length bs) n); simpl; auto; lia. Qed.

Lemma wdone_const c t n v : ct_wf t = true ->
  match t with TScalar _ | TFloat _ => (n <= csize t)%nat | _ => n = csize t end -> ct_ok t v ->
  wdone (write_const c t n v).
Proof.
  intros Hw Hn Hv. pose proof (enc_ct_length (c_wire c) t v Hv) as Hl.
  assert (Hn' : (n <= csize t)%nat) by (destruct t; simpl in *; lia).
  unfold write_const. destruct (is_host_order c) eqn:Hh.
  - rewrite store_enc by auto. apply wdone_prefix. lia.
  - destruct t as [s|m t|m|w].
    + destruct v; simpl in Hv; try tauto. rewrite store_swapped_wire by auto.
      apply wdone_prefix. rewrite <- Hl in Hn'. exact Hn'.
    + rewrite foreign_leaves by auto. apply wdone_puts.
    + destruct (store_str (c_host c) m v Hv) as [-> He]. 
      apply wdone_prefix. rewrite <- (He (c_wire c)). lia.
    + destruct v; simpl in Hv; try tauto. destruct Hv as [-> _].
      rewrite Nat.eqb_refl, store_swapped_wire by auto.
      apply wdone_prefix. rewrite <- Hl in Hn'. exact Hn'.
Qed.

Lemma wdone_var c elt l : ct_wf elt = true -> Forall (ct_ok elt) l -> wdone (write_var c elt l).
Proof.
  intros Hw Hv. unfold write_var. destruct (is_host_order c) eqn:Hh.
  - rewrite (sequence_all _ (enc_ct (c_wire c) elt)).
    + destruct (c_cx c); [apply wdone_puts|]. simpl. auto.
    + eapply Forall_impl; [|exact Hv]. intros a. apply store_enc; auto.
  - rewrite (sequence_all _ (leaves (c_wire c) elt)).
    + apply wdone_puts.
    + eapply Forall_impl; [|exact Hv]. intros a. apply foreign_leaves; auto.
Qed.

Lemma uw_wcheck ub t k v : constr_ok t k = true -> has_ty t v -> (tame t k = true \/ ub) ->
  uw ub (u_wcheck k v) [].
Proof.
  intros Hk Hv Hu. destruct (check_typed t k v Hk Hv) as [H1 H2]. unfold u_wcheck, u_holds.
  assert (Q : match check k v with
    | CTrue => True | CFalse => True | CUndef => ub | CStuck => False end).
  { destruct (check k v); auto. destruct Hu as [Hu|Hu]; auto. elim (H2 Hu eq_refl). }
  destruct k; try (destruct (check _ v); exact Q || reflexivity). simpl. intros []; simpl; auto.
Qed.

Lemma uw_len {ub : Prop} c e l n : len_value e l -> uw ub (u_verify_len c e l n) [].
Proof.
  destruct l; simpl; auto. intros [vs ->]. simpl. intros z. destruct (_ =? n); simpl; auto.
Qed.

Lemma uw_ladder {ub : Prop} seen e brs : covers seen e ->
  forallb (fun b => all_in (snd b) seen) brs = true -> uw ub (u_ladder e brs) [].
Proof.
  intros Hc. induction brs as [|[p ids] brs IH]; simpl; intros H; auto.
  apply andb_true_iff in H. destruct H as [H1 H2].
  destruct (covers_lookups _ _ _ Hc H1) as [vs ->]. simpl. intros [|]; simpl; auto.
  apply uw_check; auto. simpl. auto.
Qed.

Lemma uw_type {ub : Prop} G seen e g n : env_has G e -> covers seen e ->
  guide_wf seen g = true -> guide_typed G g n = true -> uw ub (u_type e g) [].
Proof.
  intros Hg Hc Hw Ht. destruct g; simpl in *.
  - destruct (tlookup G id) as [t|] eqn:E; [|discriminate].
    apply Hg in E. destruct E as (v & Hl & Hv).
    destruct t as [[s'| | |]| | | | | |]; try discriminate. simpl in Hv. destruct v; try tauto.
    rewrite Hl. reflexivity.
  - destruct (covers_lookups _ _ _ Hc Hw) as [vs ->]. simpl. auto.
  - eapply uw_ladder; eauto.
Qed.

Lemma val_size_target t id v : ident_is (len_target t) id = true -> has_ty t v ->
  exists n, val_size v = Some n.
Proof.
  destruct t as [|elt [] b| | |fs r [] b| |]; simpl; try discriminate; intros _ Hv;
    destruct v; try tauto; simpl; eauto.
Qed.

Lemma uw_agrees {ub : Prop} seen e id w t v : wf_ty seen t = true -> covers seen e -> has_ty t v ->
  uw ub (u_cond_agrees e id w t v) [].
Proof.
  intros Hw Hc Hv. unfold u_cond_agrees.
  destruct t as [| | | | |b p ids|g al]; try reflexivity.
  - cbn [wf_ty] in Hw. apply andb_true_iff in Hw. destruct Hw as [W1 W2].
    destruct v as [| | | |v'| |]; simpl in Hv; try tauto.
    + unfold cond_agrees. cbn [cond_target]. destruct (ident_is _ _); reflexivity.
    + destruct (ident_is (len_target b) id) eqn:Ei; [|reflexivity].
      destruct (covers_lookups _ _ _ Hc W1) as [vs ->]. simpl. intros [|]; [|reflexivity].
      destruct (val_size_target _ _ _ Ei Hv) as [n ->]. reflexivity.
  - simpl in Hv. destruct v as [| | | | |i v'|]; try tauto.
    unfold cond_agrees. cbn [cond_target ident_is].
    apply has_alt_nth in Hv. destruct Hv as (t' & k' & -> & Hv).
    destruct (ident_is (len_target t') id) eqn:Ei; [|reflexivity].
    destruct (val_size_target _ _ _ Ei Hv) as [n ->]. reflexivity.
Qed.

Lemma uw_verify {ub : Prop} e id w fs : forall seen vs, wf_fields seen fs = true ->
  covers seen e -> covers (f_ids fs) e -> has_fields fs vs -> uw ub (u_verify e id w fs vs) [].
Proof.
  induction fs as [|id' t k fs IH]; intros seen [|v vs] Hw Hc Hc' Hv; simpl in Hv; try tauto.
  - reflexivity.
  - cbn [u_verify wf_fields f_ids] in *.
    apply andb_true_iff in Hw. destruct Hw as [Hw W3]. apply andb_true_iff in Hw. destruct Hw as [W1 W2].
    destruct Hv as [V1 V2]. apply uw_check; [eapply uw_agrees; eauto|]. intros a.
    apply uw_check; [|reflexivity]. eapply (IH (id' :: seen)); eauto.
    + intros x [->|Hx]; auto. apply Hc'. left; auto.
    + intros x Hx. apply Hc'. right; auto.
Qed.

Section Ctx.
Variable fs : fields.
Variable vs : list val.
Hypothesis Hx : wctx fs vs.
Hypothesis Hwf : wf_fields [] fs = true.
Hypothesis Hvs : has_fields fs vs.

Lemma uw_verify_then_write {ub : Prop} c id t n v : ct_wf t = true ->
  match t with TScalar _ | TFloat _ => (n <= csize t)%nat | _ => n = csize t end -> ct_ok t v ->
  (has_cond_obligation fs id = true -> exists s, t = TScalar s) ->
  uw ub (u_verify_then_write c fs vs id t n v) (fixed_calls c t n v).
Proof.
  intros Hw Hn Hv Hs.
  assert (F : uw ub (of_w (write_const c t n v)) (fixed_calls c t n v)).
  { apply uw_of_w; [apply wdone_const|apply follows_const]; auto. }
  unfold u_verify_then_write. destruct (has_cond_obligation fs id) eqn:Eh; auto.
  destruct (Hs eq_refl) as [s ->]. simpl in Hv. destruct v; try tauto.
  apply uw_check.
  - eapply (uw_verify (mk_env fs vs) _ _ fs []); eauto; [intros ? []|apply (x_cov _ _ Hx)].
  - intros [|]; simpl; auto.
Qed.

Lemma uw_fixed ub c id mem k t n v : ct_wf t = true ->
  match t with TScalar _ | TFloat _ => (n <= csize t)%nat | _ => n = csize t end -> ct_ok t v ->
  constr_ok (FFixed t n) k = true -> (tame (FFixed t n) k = true \/ ub) ->
  (is_derived fs id || has_cond_obligation fs id = true -> exists s, t = TScalar s) ->
  (mem = false -> is_derived fs id || has_cond_obligation fs id = false) ->
  uw ub (u_write_fixed c fs vs id mem k t n v)
    (fixed_calls c t n (if mem then slot (hd_error (claims c id fs vs)) k (FFixed t n) v else v)).
Proof.
  intros Hw Hn Hv Hk Hu Hs Hm. unfold u_write_fixed.
  assert (Hs' : has_cond_obligation fs id = true -> exists s, t = TScalar s).
  { intros H. apply Hs. rewrite H. apply orb_true_r. }
  pose proof (x_derived _ _ Hx c id) as Hd.
  destruct (is_derived fs id) eqn:Ed.
  - destruct mem; [|specialize (Hm eq_refl); discriminate].
    destruct (Hs eq_refl) as [s ->]. unfold derive_value. rewrite (x_fold _ _ Hx).
    destruct (claims c id fs vs) as [|z l]; [exfalso; apply Hd; auto|]. simpl hd_error.
    cbn [fold_left slot]. change (record (mkD 0 false true) z) with (mkD z true true).
    destruct (record_agreed l z) as [R1 R2].
    destruct (d_agreed _) eqn:Ea; cbn [negb]; [|exact I].
    rewrite R2 by (apply R1; auto). destruct (fits_declared_width c s n z); cbn [negb]; [|exact I].
    assert (Hc : ct_ok (TScalar s) (VZ (conv s z))) by (simpl; apply conv_in).
    apply uw_check; [eapply uw_wcheck; eauto|]. intros []. apply uw_verify_then_write; auto.
  - assert (claims c id fs vs = []) as ->.
    { destruct (claims c id fs vs); auto. exfalso. assert (false = true) by (apply Hd; discriminate).
      discriminate. }
    unfold is_frozen. rewrite frozen_pinned. destruct mem; simpl andb.
    + cbn [hd_error]. assert (slot None k (FFixed t n) v = match pinned t k with Some w => w | None => v end)
        as -> by (destruct t; auto).
      destruct (pinned t k) as [w|] eqn:Ep; apply uw_verify_then_write; auto.
      eapply pinned_ok; eauto.
    + apply uw_verify_then_write; auto.
Qed.
End Ctx.

Definition uw_ty (t : fty) : Prop := forall (ub : Prop) c fs vs id mem k v G seen,
  wctx fs vs -> wf_fields [] fs = true -> has_fields fs vs ->
  wf_ty seen t = true -> incl seen (f_ids fs) -> typed_ty G t = true ->
  sub G (tafter [] fs) -> constr_ok t k = true -> (plain_ty t && tame t k = true \/ ub) -> has_ty t v ->
  (is_derived fs id || has_cond_obligation fs id = true -> exists s n, t = FFixed (TScalar s) n) ->
  (mem = false -> is_derived fs id || has_cond_obligation fs id = false) ->
  uw ub (u_write c fs vs id mem k t v)
    (calls_ty c t
      (if mem then slot (hd_error (claims c id fs vs)) k t (emit_ty c t v) else emit_ty c t v)).

Definition uw_fields (gs : fields) : Prop := forall (ub : Prop) c fs vs ws G seen,
  wctx fs vs -> wf_fields [] fs = true -> has_fields fs vs ->
  wf_fields seen gs = true -> incl seen (f_ids fs) -> incl (f_ids gs) (f_ids fs) ->
  typed_fields G gs = true -> sub G (tafter [] fs) -> members (tafter [] fs) gs ->
  (plain_fields gs = true \/ ub) -> has_fields gs ws ->
  uw ub (u_write_fields c fs vs gs ws)
    (calls_fields c gs (emit_fields c (fun id => hd_error (claims c id fs vs)) gs ws)).

Definition uw_alts (al : alts) : Prop := forall (ub : Prop) c fs vs id i v G seen,
  wctx fs vs -> wf_fields [] fs = true -> has_fields fs vs ->
  wf_alts seen al = true -> incl seen (f_ids fs) -> typed_alts G al = true ->
  sub G (tafter [] fs) -> (plain_alts al = true \/ ub) -> has_alt al i v ->
  is_derived fs id || has_cond_obligation fs id = false ->
  uw ub (u_write_alts c fs vs id al i v) (calls_alts c al i (emit_alts c al i v)).

Lemma uw_cast gs : uw_fields gs -> forall (ub : Prop) c ws, wf_fields [] gs = true ->
  typed_fields [] gs = true -> (plain_fields gs = true \/ ub) -> has_fields gs ws ->
  uw ub (u_write_fields c gs ws gs ws) (calls_fields c gs (emitted c gs ws)).
Proof.
  intros IH ub c ws Hw Ht Hp Hv. destruct (wctx_intro gs ws Hw Ht Hv) as [Hx Hm].
  eapply IH; eauto.
  - intros x [].
  - apply incl_refl.
  - intros i t Hl. discriminate.
Qed.

Lemma uw_records gs : uw_fields gs -> forall (ub : Prop) c xs, wf_fields [] gs = true ->
  typed_fields [] gs = true -> (plain_fields gs = true \/ ub) ->
  Forall (fun x => match x with VRec vs => has_fields gs vs | _ => False end) xs ->
  uw ub (ufor xs (fun x => match x with
                             | VRec ws => umaperr fst (u_write_fields c gs ws gs ws)
                             | _ => UStuck
                             end))
    (flat_map (fun x => match x with VRec ws => calls_fields c gs ws | _ => [] end)
       (map (fun x => match x with VRec ws => VRec (emitted c gs ws) | _ => x end) xs)).
Proof.
  intros IH ub c xs Hw Ht Hp Hv. rewrite flat_map_concat_map, map_map, <- flat_map_concat_map.
  apply uw_for. eapply Forall_impl; [|exact Hv]. intros x Hx. destruct x; try tauto.
  apply uw_maperr. apply uw_cast; auto.
Qed.

Lemma writer_calls_any : (forall t, uw_ty t) /\ (forall gs, uw_fields gs) /\ (forall al, uw_alts al).
Proof.
  apply schema_mutind; unfold uw_ty, uw_alts.
  - intros t n ub c fs vs id mem k v G seen Hx Hf Hvs Hw Hi Ht Hs Ho Hp Hv Hd Hm.
    cbn [u_write wf_ty has_ty emit_ty] in *. apply andb_true_iff in Hw. destruct Hw as [W1 W2].
    apply plain_and in Hp. apply uw_fixed; auto; try tauto.
    + destruct t; lia.
    + intros H. destruct (Hd H) as (s & m & E). inversion E; subst. eauto.
  - intros elt l b ub c fs vs id mem k v G seen Hx Hf Hvs Hw Hi Ht Hs Ho Hp Hv Hd Hm.
    rewrite slot_if by discriminate. cbn [u_write wf_ty typed_ty has_ty emit_ty] in *.
    apply andb_true_iff in Hw. destruct Hw as [W1 W2].
    destruct v; try tauto. apply uw_check.
    + apply uw_len. eapply len_value_typed with (G := G) (seen := seen); auto.
      * intros i u E. apply (x_has _ _ Hx), Hs, E.
      * eapply covers_incl; [apply (x_cov _ _ Hx)|auto].
    + intros _. apply uw_of_w; [apply wdone_var|apply follows_var]; auto.
  - intros gs IH ub c fs vs id mem k v G seen Hx Hf Hvs Hw Hi Ht Hs Ho Hp Hv Hd Hm.
    rewrite slot_if by discriminate. cbn [u_write wf_ty typed_ty has_ty emit_ty plain_ty] in *.
    apply plain_and in Hp.
    destruct v; try tauto. apply uw_maperr. apply (uw_cast gs IH); tauto.
  - intros n gs IH ub c fs vs id mem k v G seen Hx Hf Hvs Hw Hi Ht Hs Ho Hp Hv Hd Hm.
    rewrite slot_if by discriminate. cbn [u_write wf_ty typed_ty has_ty emit_ty plain_ty] in *.
    apply plain_and in Hp.
    destruct v; try tauto. destruct Hv as [<- Hv]. rewrite Nat.eqb_refl.
    apply (uw_records gs IH); tauto.
  - intros gs IH recsz l b ub c fs vs id mem k v G seen Hx Hf Hvs Hw Hi Ht Hs Ho Hp Hv Hd Hm.
    rewrite slot_if by discriminate. cbn [u_write wf_ty typed_ty has_ty emit_ty plain_ty] in *.
    apply plain_and in Hp.
    apply andb_true_iff in Hw. destruct Hw as [Hw W2].
    apply andb_true_iff in Hw. destruct Hw as [W1 W3].
    apply andb_true_iff in Ht. destruct Ht as [T1 T2].
    destruct v; try tauto. apply uw_check.
    + apply uw_len. eapply len_value_typed with (G := G) (seen := seen); auto.
      * intros i u E. apply (x_has _ _ Hx), Hs, E.
      * eapply covers_incl; [apply (x_cov _ _ Hx)|auto].
    + intros _. apply (uw_records gs IH); tauto.
  - intros b IH p ids ub c fs vs id mem k v G seen Hx Hf Hvs Hw Hi Ht Hs Ho Hp Hv Hd Hm.
    rewrite slot_if by discriminate. cbn [u_write wf_ty typed_ty has_ty emit_ty plain_ty] in *.
    apply plain_and in Hp.
    apply andb_true_iff in Hw. destruct Hw as [W1 W2].
    apply andb_true_iff in Ht. destruct Ht as [_ T2].
    destruct (covers_lookups _ _ ids (covers_incl _ _ _ (x_cov _ _ Hx) Hi) W1) as [args ->].
    assert (Hnd : is_derived fs id || has_cond_obligation fs id = false).
    { destruct (is_derived fs id || has_cond_obligation fs id); auto.
      destruct (Hd eq_refl) as (s & n & E). discriminate. }
    intros [|]; destruct v; try tauto; try exact I; try reflexivity.
    cbn [calls_ty]. apply (IH ub c fs vs id false CNone v G seen); auto.
    + rewrite andb_true_r. tauto.
    + intros H. congruence.
  - intros g al IH ub c fs vs id mem k v G seen Hx Hf Hvs Hw Hi Ht Hs Ho Hp Hv Hd Hm.
    rewrite slot_if by discriminate. cbn [u_write wf_ty typed_ty has_ty emit_ty plain_ty] in *.
    apply plain_and in Hp. destruct Hp as [P1 _].
    apply andb_true_iff in Hw. destruct Hw as [W1 W2].
    apply andb_true_iff in Ht. destruct Ht as [T1 T2].
    assert (Hnd : is_derived fs id || has_cond_obligation fs id = false).
    { destruct (is_derived fs id || has_cond_obligation fs id); auto.
      destruct (Hd eq_refl) as (s & n & E). discriminate. }
    destruct v; try tauto. cbn [calls_ty].
    assert (Hal : uw ub (u_write_alts c fs vs id al i v) (calls_alts c al i (emit_alts c al i v))) by eauto.
    assert (Q : uw ub (u_type (mk_env fs vs) g) []).
    { eapply uw_type with (G := G) (seen := seen); eauto.
      - intros j u E. apply (x_has _ _ Hx), Hs, E.
      - eapply covers_incl; [apply (x_cov _ _ Hx)|auto]. }
    destruct g; auto; (apply uw_check; [exact Q|]); intros [j|]; simpl; auto;
      destruct (Nat.eqb j i); simpl; auto.
  - intros ub c fs vs ws G seen Hx Hf Hvs Hw Hi Hi' Ht Hs Hm Hp Hv. destruct ws; [|simpl in Hv; tauto].
    reflexivity.
  - intros id t IHt k gs IHgs ub c fs vs ws G seen Hx Hf Hvs Hw Hi Hi' Ht Hs Hm Hp Hv.
    destruct ws as [|w ws]; [simpl in Hv; tauto|].
    cbn [u_write_fields wf_fields typed_fields has_fields members f_ids emit_fields calls_fields plain_fields] in *.
    apply andb_true_iff in Hw. destruct Hw as [Hw W3]. apply andb_true_iff in Hw. destruct Hw as [W1 W2].
    apply andb_true_iff in Ht. destruct Ht as [Ht T3]. apply andb_true_iff in Ht. destruct Ht as [T1 T2].
    apply plain_and in Hp. destruct Hp as [P1 P3].
    destruct Hv as [V1 V2]. destruct Hm as [M1 M2].
    apply uw_bind.
    + intros []. apply (IHgs ub c fs vs ws ((id, t) :: G) (id :: seen)); auto.
      * intros x [->|Hin]; auto. apply Hi'. left; auto.
      * intros x Hin. apply Hi'. right; auto.
      * intros i u. simpl. destruct (String.eqb_spec id i); auto. intros E; inversion E; subst; auto.
    + apply uw_maperr. apply uw_check.
      * destruct (is_derived fs id || is_frozen t k); [reflexivity|].
        apply plain_and in P1. eapply uw_wcheck; eauto; tauto.
      * intros []. apply (IHt ub c fs vs id true k w G seen); auto; try discriminate.
        intros H. destruct (x_scalar _ _ Hx _ H) as (s & n & E). rewrite M1 in E. inversion E; eauto.
  - intros ub c fs vs id i v G seen _ _ _ _ _ _ _ _ Hv. simpl in Hv. tauto.
  - intros t IHt k al IHal ub c fs vs id i v G seen Hx Hf Hvs Hw Hi Ht Hs Hp Hv Hd.
    cbn [u_write_alts wf_alts typed_alts has_alt emit_alts calls_alts plain_alts] in *.
    apply andb_true_iff in Hw. destruct Hw as [W1 W2].
    apply andb_true_iff in Ht. destruct Ht as [Ht T3].
    apply andb_true_iff in Ht. destruct Ht as [Ht T2].
    apply andb_true_iff in Ht. destruct Ht as [_ T1].
    apply plain_and in Hp. destruct Hp as [P1 P3].
    destruct i.
    + apply uw_check; [apply plain_and in P1; eapply uw_wcheck; eauto; tauto|].
      intros []. apply (IHt ub c fs vs id false k v G seen); auto. intros H. congruence.
    + eapply IHal; eauto.
Qed.

Lemma uw_run (ub : Prop) {E A} (H : host) (p : uprog E A) : forall l s o s' ev,
  uw ub p l -> urun H p s = (o, s', ev) ->
  o <> Stuck /\ (o = UB -> ub) /\
  (exists rest, l = map fst (flat_map io_write ev) ++ rest) /\
  (forall a, o = Ok a -> flat_map io_write ev = map (fun bs => (bs, true)) l).
Proof.
  assert (T : forall (o : outcome E A) l, o <> Stuck -> o <> UB -> (forall a, o <> Ok a) ->
    o <> Stuck /\ (o = UB -> ub) /\ (exists rest, l = @nil (list Z) ++ rest) /\
    (forall a, o = Ok a -> [] = map (fun bs : list Z => (bs, true)) l)).
  { intros o l H1 H2 H3. repeat split; try tauto; [exists l; auto|]. intros a Ha. elim (H3 a Ha). }
  induction p; simpl; intros l s o s' ev F R; try tauto.
  - injection R as <- <- <-. subst l. repeat split; try discriminate. exists []; auto.
  - injection R as <- <- <-. apply T; discriminate.
  - injection R as <- <- <-. repeat split; auto; try discriminate. exists l; auto.
  - destruct l as [|b l]; [tauto|]. destruct F as [-> F].
    destruct (h_write H s bs) as [[[|]|] s1].
    + destruct (urun H p s1) as [[o1 s2] ev1] eqn:Q. injection R as <- <- <-.
      destruct (IHp _ _ _ _ _ F Q) as (H1 & H2 & [rest H3] & H4). repeat split; auto.
      * exists rest. simpl. rewrite H3. reflexivity.
      * intros a Ha. simpl. rewrite (H4 a Ha). reflexivity.
    + injection R as <- <- <-. repeat split; try discriminate. exists l; auto.
    + injection R as <- <- <-. apply T; discriminate.
  - destruct (h_num H s f args) as [[z|] s1].
    + destruct (urun H (k z) s1) as [[o1 s2] ev1] eqn:Q. injection R as <- <- <-.
      exact (H0 _ _ _ _ _ _ (F z) Q).
    + injection R as <- <- <-. apply T; discriminate.
  - destruct (h_test H s p args) as [[z|] s1].
    + destruct (urun H (k z) s1) as [[o1 s2] ev1] eqn:Q. injection R as <- <- <-.
      exact (H0 _ _ _ _ _ _ (F z) Q).
    + injection R as <- <- <-. apply T; discriminate.
  - destruct (h_check H s p v) as [[z|] s1].
    + destruct (urun H (k z) s1) as [[o1 s2] ev1] eqn:Q. injection R as <- <- <-.
      exact (H0 _ _ _ _ _ _ (F z) Q).
    + injection R as <- <- <-. apply T; discriminate.
Qed.

Lemma any_write c fs vs H s o s' ev : wf fs = true -> typed fs = true -> has_fields fs vs ->
  urun H (u_stream_cast c fs vs) s = (o, s', ev) ->
  o <> Stuck /\ (plain_fields fs = true -> o <> UB) /\
  (exists rest, calls_fields c fs (emitted c fs vs) = map fst (flat_map io_write ev) ++ rest) /\
  (o = Ok tt -> map fst (flat_map io_write ev) = calls_fields c fs (emitted c fs vs)).
Proof.
  intros Hw Ht Hv R. destruct writer_calls_any as (_ & HF & _).
  pose proof (uw_cast fs (HF fs) (plain_fields fs <> true) c vs Hw Ht) as Q.
  destruct (uw_run _ H _ _ _ _ _ _ (Q ltac:(destruct (plain_fields fs); [left|right]; congruence) Hv) R)
    as (H1 & H2 & H3 & H4).
  repeat split; auto.
  - intros Hp Ho. apply H2 in Ho. tauto.
  - intros Ho. rewrite (H4 tt Ho), map_map. apply map_id.
Qed.
