(** * The structs on which a write is undefined *)
From Coq Require Import ZifyBool ZifyNat Lia.
From Verif Require Import PropDefs WUndef BytesFacts ProgFacts ReadFacts ReadMore Safety.
From Verif Require Import WriteFacts WriteMain WriteErr ExactFacts RUndefFacts.
Import ListNotations.
Local Open Scope Z_scope.

Definition ubs {E} (U : Prop) (o : outcome E unit) : Prop := o = UB <-> U.

Lemma ubs_iff {E} U U' (o : outcome E unit) : (U <-> U') -> ubs U o -> ubs U' o.
Proof. unfold ubs. tauto. Qed.

Lemma ubs_not {E} U (o : outcome E unit) : o <> UB -> ~ U -> ubs U o.
Proof. unfold ubs. tauto. Qed.

Lemma ubs_bind {E} W1 (F1 : E -> Prop) U1 U2 (p : wprog E unit) f :
  exact W1 F1 (fst (wmem p)) -> ubs U1 (fst (wmem p)) -> (W1 -> ubs U2 (fst (wmem (f tt)))) ->
  ubs (U1 \/ (W1 /\ U2)) (fst (wmem (wbind p f))).
Proof.
  unfold ubs. rewrite wmem_bind. intros [H1 _] H2 H. destruct (wmem p) as [[[]|e| | |] out]; simpl in *.
  - assert (HW : W1) by (apply H1; auto). specialize (H HW).
    destruct (wmem (f tt)) as [o out2]. simpl in *. rewrite H.
    split; [tauto|]. intros [X|X]; [apply H2 in X; discriminate|tauto].
  - assert (~ W1) by (intros X; apply H1 in X; discriminate). rewrite H2. tauto.
  - assert (~ W1) by (intros X; apply H1 in X; discriminate). rewrite H2. tauto.
  - assert (~ W1) by (intros X; apply H1 in X; discriminate). rewrite H2. tauto.
  - assert (~ W1) by (intros X; apply H1 in X; discriminate). rewrite H2. tauto.
Qed.

Lemma ubs_map {E E'} U (g : E -> E') p : ubs U (fst (wmem p)) -> ubs U (fst (wmem (wmaperr g p))).
Proof.
  unfold ubs. assert (Hm : fst (wmem (wmaperr g p)) =
    match fst (wmem p) with Ok a => Ok a | Err e => Err (g e) | UB => UB | Stuck => Stuck | Throw => Throw end).
  { clear. induction p; simpl; auto. destruct (wmem p); destruct (wmem (wmaperr g p)); simpl in *; auto. }
  rewrite Hm. intros <-. destruct (fst (wmem p)) as [[]| | | |]; split; congruence.
Qed.

Lemma ubs_wfor ok (fault : val -> reason -> Prop) (U : val -> Prop) (f : val -> wprog reason unit) xs :
  Forall (fun x => exact (ok x) (fault x) (fst (wmem (f x))) /\ ubs (U x) (fst (wmem (f x)))) xs ->
  ubs (first_fault ok U xs) (fst (wmem (wfor xs f))).
Proof.
  induction 1 as [|x xs [Hx Hu] H IH]; simpl.
  - apply ubs_not; [discriminate|]. intros (b & y & a & E & _). destruct b; discriminate.
  - eapply ubs_iff; [|eapply ubs_bind; [exact Hx|exact Hu|intros _; exact IH]].
    rewrite first_fault_cons; [tauto|]. destruct Hx as [X1 _]. intros Y Z.
    apply X1 in Y. apply Hu in Z. congruence.
Qed.

Lemma ubs_wcheck t k v : constr_ok t k = true -> has_ty t v ->
  ubs (senseless k v) (fst (wmem (wcheck k v))).
Proof.
  intros Hk Hv. pose proof (check_senseless t k v Hk Hv) as Hf. unfold ubs, wcheck. rewrite <- Hf.
  destruct (check k v); simpl; split; congruence.
Qed.

Lemma exact_not {E} W Fl (o : outcome E unit) : exact W Fl o -> (W \/ exists r, Fl r) -> o <> UB.
Proof. intros [H1 H2] [X|[r X]]; [apply H1 in X|apply H2 in X]; congruence. Qed.

Lemma vtw_ub c F V id t n v : wctx F V -> ct_wf t = true ->
  match t with TScalar _ | TFloat _ => (n <= csize t)%nat | _ => n = csize t end -> ct_ok t v ->
  (has_cond_obligation F id = true -> exists s, t = TScalar s) ->
  fst (wmem (verify_then_write c F V id t n v)) <> UB.
Proof.
  intros Hx Hw Hn Hv Hs. unfold verify_then_write. destruct (has_cond_obligation F id) eqn:Eh.
  - destruct (Hs eq_refl) as [s ->]. destruct v; try (simpl in Hv; tauto).
    rewrite (x_verify _ _ Hx). destruct (forallb _ _).
    + rewrite write_const_ok by auto. discriminate.
    + discriminate.
  - rewrite write_const_ok by auto. discriminate.
Qed.

(** ** Fixed-size fields of the list *)

Lemma scalar_sense s n k z : constr_ok (FFixed (TScalar s) n) k = true -> sc_in s z = true ->
  ~ senseless k (VZ z).
Proof.
  intros Hk Hz X. assert (Hv : has_ty (FFixed (TScalar s) n) (VZ z)) by exact Hz.
  apply (check_senseless _ _ _ Hk Hv) in X.
  destruct (check_typed _ k (VZ z) Hk Hv) as [_ H]. apply H; auto.
  destruct k as [|o [] lit|[] lits| | | | | |]; auto; discriminate.
Qed.

Lemma ubs_fixed c F V id k t n v : wctx F V -> ct_wf t = true ->
  match t with TScalar _ | TFloat _ => (n <= csize t)%nat | _ => n = csize t end -> ct_ok t v ->
  constr_ok (FFixed t n) k = true ->
  (is_derived F id || has_cond_obligation F id = true -> exists s, t = TScalar s) ->
  ubs (fixed_undef c F V id k t v) (fst (wmem (field_prog' c F V id k t n v))).
Proof.
  intros Hx Hw Hn Hv Hk Hs. unfold field_prog', write_fixed, fixed_undef.
  assert (Hs' : has_cond_obligation F id = true -> exists s, t = TScalar s).
  { intros H. apply Hs. rewrite H. apply orb_true_r. }
  pose proof (x_derived _ _ Hx c id) as Hd.
  destruct (is_derived F id) eqn:Ed.
  - destruct (Hs eq_refl) as [s ->]. cbn [orb wbind]. apply ubs_not.
    2:{ intros (X & _). apply Hd in X; auto. }
    unfold derive_value. rewrite (x_fold _ _ Hx).
    destruct (negb (d_agreed _)); [discriminate|].
    destruct (negb (fits_declared_width _ _ _ _)); [discriminate|].
    match goal with |- context [conv s ?y] => generalize y; intros z end. intros X.
    assert (Y : ubs (senseless k (VZ (conv s z)) \/ (holds k (VZ (conv s z)) /\ False))
      (fst (wmem (wbind (wcheck k (VZ (conv s z)))
         (fun _ => verify_then_write c F V id (TScalar s) n (VZ (conv s z))))))).
    { eapply ubs_bind.
      - apply (exact_wcheck (FFixed (TScalar s) n) k (VZ (conv s z)) Hk (conv_in s z)).
      - apply (ubs_wcheck (FFixed (TScalar s) n)); auto. apply conv_in.
      - intros _. apply ubs_not; [|tauto]. apply vtw_ub; auto. apply conv_in. }
    apply Y in X. destruct X as [X|[_ []]]. eapply scalar_sense; [exact Hk| |exact X]. apply conv_in.
  - assert (claims c id F V = []) as ->.
    { destruct (claims c id F V); auto. exfalso. assert (false = true) by (apply Hd; discriminate).
      discriminate. }
    unfold is_frozen. rewrite frozen_pinned. cbn [orb andb].
    destruct (pinned t k) as [w|] eqn:Ep.
    + cbn [wbind]. apply ubs_not; [apply vtw_ub; auto; eapply pinned_ok; eauto|].
      intros (_ & X & _). discriminate.
    + eapply ubs_iff; [|eapply (ubs_bind _ _ _ False);
        [apply (exact_wcheck (FFixed t n) k v Hk Hv)|apply (ubs_wcheck (FFixed t n) k v Hk Hv)|]].
      * tauto.
      * intros _. apply ubs_not; [apply vtw_ub; auto|tauto].
Qed.

(** ** Every field *)

Definition ub_ty (t : fty) : Prop := forall c F V id mem k v G seen,
  wctx F V -> wf_ty seen t = true -> incl seen (f_ids F) -> typed_ty G t = true ->
  sub G (tafter [] F) -> has_ty t v ->
  is_derived F id || has_cond_obligation F id = false ->
  (mem = true -> forall t' n, t <> FFixed t' n) ->
  ubs (wundef_ty c (mk_env F V) t v) (fst (wmem (write_ty c F V id mem k t v))).

Definition ub_fields (gs : fields) : Prop := forall c F V ws G seen,
  wctx F V -> wf_fields seen gs = true -> incl seen (f_ids F) -> incl (f_ids gs) (f_ids F) ->
  typed_fields G gs = true -> sub G (tafter [] F) -> members (tafter [] F) gs ->
  has_fields gs ws ->
  ubs (wundef_fields c F V gs ws) (fst (wmem (write_fields c F V gs ws))).

Definition ub_alts (al : alts) : Prop := forall c F V id i v G seen,
  wctx F V -> wf_alts seen al = true -> incl seen (f_ids F) -> typed_alts G al = true ->
  sub G (tafter [] F) -> has_alt al i v ->
  is_derived F id || has_cond_obligation F id = false ->
  ubs (wundef_alts c (mk_env F V) al i v) (fst (wmem (write_alts c F V id al i v))).

Lemma ub_cast gs : ub_fields gs -> forall c ws, wf_fields [] gs = true ->
  typed_fields [] gs = true -> has_fields gs ws ->
  ubs (wundef_fields c gs ws gs ws) (fst (wmem (write_fields c gs ws gs ws))).
Proof.
  intros IH c ws Hw Ht Hv. destruct (wctx_intro gs ws Hw Ht Hv) as [Hx Hm].
  eapply IH; eauto.
  - intros x [].
  - apply incl_refl.
  - intros i t Hl. discriminate.
Qed.

Lemma ub_records gs : ub_fields gs -> forall c xs, wf_fields [] gs = true ->
  typed_fields [] gs = true ->
  Forall (fun x => match x with VRec vs => has_fields gs vs | _ => False end) xs ->
  ubs (first_fault (fun x => exists ws, x = VRec ws /\ ok_fields c gs ws gs ws)
         (fun x => exists ws, x = VRec ws /\ wundef_fields c gs ws gs ws) xs)
    (fst (wmem (wfor xs (fun x => match x with
                             | VRec ws => wmaperr fst (write_fields c gs ws gs ws)
                             | _ => WStuck
                             end)))).
Proof.
  intros IH c xs Hw Ht Hv. destruct writer_exact as (_ & Hex & _).
  apply (ubs_wfor (fun x => exists ws, x = VRec ws /\ ok_fields c gs ws gs ws)
    (fun x r => exists ws, x = VRec ws /\ fault_fields c gs ws gs ws r)).
  eapply Forall_impl; [|exact Hv]. intros x Hx. destruct x; try tauto. split.
  - eapply exact_iff; [| |apply ex_record; auto].
    + split; [eauto|]. intros (ws & E & H). inversion E; subst; auto.
    + intros r. split; [eauto|]. intros (ws & E & H). inversion E; subst; auto.
  - eapply ubs_iff; [|apply ubs_map, ub_cast; auto].
    split; [eauto|]. intros (ws & E & H). inversion E; subst; auto.
Qed.

Lemma writer_undefs : (forall t, ub_ty t) /\ (forall gs, ub_fields gs) /\ (forall al, ub_alts al).
Proof.
  destruct writer_exact as (Het & Hef & Hea).
  apply schema_mutind; unfold ub_ty, ub_alts.
  - intros t n c F V id mem k v G seen Hx Hw Hi Ht Hs Hv Hd Hm.
    destruct mem; [exfalso; eapply Hm; eauto|].
    apply ubs_not; [|tauto]. eapply exact_not; [eapply Het; eauto; discriminate|]. left. exact I.
  - intros elt l b c F V id mem k v G seen Hx Hw Hi Ht Hs Hv Hd Hm.
    cbn [write_ty wf_ty typed_ty has_ty wundef_ty] in *.
    apply andb_true_iff in Hw. destruct Hw as [W1 W2]. destruct v as [|xs| | | | |]; try tauto.
    eapply ubs_iff; [|eapply (ubs_bind _ _ False False); [apply exact_len; eapply ctx_len; eauto| |]].
    + tauto.
    + apply ubs_not; [|tauto]. unfold verify_len. destruct l; [discriminate|].
      destruct (deduce_len _ _ _); [|discriminate]. destruct (_ =? _); discriminate.
    + intros _. rewrite write_var_ok by auto. apply ubs_not; [discriminate|tauto].
  - intros gs IH c F V id mem k v G seen Hx Hw Hi Ht Hs Hv Hd Hm.
    cbn [write_ty wf_ty typed_ty has_ty wundef_ty] in *. destruct v as [| |ws| | | |]; try tauto.
    eapply ubs_iff; [|apply ubs_map, (ub_cast gs IH c ws); auto].
    split; [eauto|]. intros (ys & E & X). inversion E; subst. auto.
  - intros n gs IH c F V id mem k v G seen Hx Hw Hi Ht Hs Hv Hd Hm.
    cbn [write_ty wf_ty typed_ty has_ty wundef_ty] in *. destruct v as [|xs| | | | |]; try tauto.
    destruct Hv as [<- Hv]. rewrite Nat.eqb_refl.
    eapply ubs_iff; [|apply (ub_records gs IH c xs); auto].
    split; [eauto|]. intros (ys & E & X). inversion E; subst. auto.
  - intros gs IH recsz l b c F V id mem k v G seen Hx Hw Hi Ht Hs Hv Hd Hm.
    cbn [write_ty wf_ty typed_ty has_ty wundef_ty] in *.
    apply andb_true_iff in Hw. destruct Hw as [Hw W2].
    apply andb_true_iff in Hw. destruct Hw as [W1 W3].
    apply andb_true_iff in Ht. destruct Ht as [T1 T2]. destruct v as [|xs| | | | |]; try tauto.
    eapply ubs_iff; [|eapply (ubs_bind _ _ False);
      [apply exact_len; eapply ctx_len; eauto| |intros _; apply (ub_records gs IH c xs); auto]].
    + split; [intros [[]|[X Y]]; eauto|]. intros (ys & E & X). inversion E; subst. auto.
    + apply ubs_not; [|tauto]. unfold verify_len. destruct l; [discriminate|].
      destruct (deduce_len _ _ _); [|discriminate]. destruct (_ =? _); discriminate.
  - intros b IH p ids c F V id mem k v G seen Hx Hw Hi Ht Hs Hv Hd Hm.
    cbn [write_ty wf_ty typed_ty has_ty wundef_ty] in *.
    apply andb_true_iff in Hw. destruct Hw as [W1 W2].
    apply andb_true_iff in Ht. destruct Ht as [_ T2].
    destruct (covers_lookups _ _ ids (covers_incl _ _ _ (x_cov _ _ Hx) Hi) W1) as [args Ha].
    rewrite Ha.
    destruct (p args) eqn:Ep, v; try tauto; simpl fst.
    + apply ubs_not; [discriminate|]. intros (a & v' & _ & _ & E & _). discriminate.
    + assert (Hin : ubs (wundef_ty c (mk_env F V) b v) (fst (wmem (write_ty c F V id false CNone b v)))).
      { eapply IH; eauto. discriminate. }
      eapply ubs_iff; [|exact Hin]. split; [eauto 6|]. intros (a & v' & _ & _ & E & X). inversion E; subst. auto.
    + apply ubs_not; [discriminate|]. intros (a & v' & _ & _ & E & _). discriminate.
    + apply ubs_not; [discriminate|]. intros (a & v' & E & E' & _). inversion E; subst. congruence.
  - intros g al IH c F V id mem k v G seen Hx Hw Hi Ht Hs Hv Hd Hm.
    cbn [write_ty wf_ty typed_ty has_ty wundef_ty] in *.
    apply andb_true_iff in Hw. destruct Hw as [W1 W2].
    apply andb_true_iff in Ht. destruct Ht as [T1 T2].
    destruct v as [| | | | |i v|]; try tauto.
    assert (Hal : ubs (wundef_alts c (mk_env F V) al i v) (fst (wmem (write_alts c F V id al i v)))) by eauto.
    assert (Hg : exists r, deduce_type (mk_env F V) g = Some r /\
                           forall j, r = Some j -> (j < a_len al)%nat).
    { eapply deduce_type_total; eauto.
      - eapply env_has_sub; [apply (x_has _ _ Hx)|auto].
      - eapply covers_incl; [apply (x_cov _ _ Hx)|auto]. }
    destruct Hg as (r & Hr & _).
    assert (Hin : guide_ok (mk_env F V) g i ->
      ubs (exists i' v', VAlt i v = VAlt i' v' /\ guide_ok (mk_env F V) g i' /\ wundef_alts c (mk_env F V) al i' v')
        (fst (wmem (write_alts c F V id al i v)))).
    { intros Hgo. eapply ubs_iff; [|exact Hal].
      split; [eauto 6|]. intros (i' & v' & E & X). inversion E; subst. tauto. }
    assert (Hun : is_match_field g = false -> (guide_ok (mk_env F V) g i <-> selects (mk_env F V) g i)).
    { destruct g; simpl; try discriminate; tauto. }
    destruct (is_match_field g) eqn:Eg; [destruct g; try discriminate; apply Hin; simpl; auto|].
    specialize (Hun eq_refl).
    assert (Hrw : (match g with
      | GField _ _ _ => write_alts c F V id al i v
      | _ => match deduce_type (mk_env F V) g with
             | Some (Some j) => if Nat.eqb j i then write_alts c F V id al i v else WErr ValidationFailure
             | Some None => WErr TypeDeductionFailure
             | None => WStuck end end) =
      match r with
      | Some j => if Nat.eqb j i then write_alts c F V id al i v else WErr ValidationFailure
      | None => WErr TypeDeductionFailure end).
    { destruct g; try discriminate Eg; rewrite Hr; auto. }
    rewrite Hrw. clear Hrw. destruct r as [j|].
    + apply deduce_type_iff in Hr. destruct (Nat.eqb_spec j i) as [->|Hne].
      * apply Hin. tauto.
      * apply ubs_not; [discriminate|]. intros (i' & v' & E & X & _). inversion E; subst.
        apply Hun in X. apply deduce_type_iff in X, Hr. congruence.
    + apply ubs_not; [discriminate|]. intros (i' & v' & E & X & _). inversion E; subst.
      apply Hun, deduce_type_iff in X. congruence.
  - intros c F V ws G seen Hx Hw Hi Hi' Ht Hs Hm Hv. destruct ws; [|simpl in Hv; tauto].
    apply ubs_not; [discriminate|simpl; tauto].
  - intros id t IHt k gs IHgs c F V ws G seen Hx Hw Hi Hi' Ht Hs Hm Hv.
    destruct ws as [|w ws]; [simpl in Hv; tauto|].
    cbn [write_fields wf_fields typed_fields has_fields members f_ids wundef_fields] in *.
    change (match t with
      | FFixed t' _ => fixed_undef c F V id k t' w
      | _ => senseless k w \/ (holds k w /\ wundef_ty c (mk_env F V) t w)
      end) with (wundef_field c F V id t k w).
    apply andb_true_iff in Hw. destruct Hw as [Hw W3]. apply andb_true_iff in Hw. destruct Hw as [W1 W2].
    apply andb_true_iff in Ht. destruct Ht as [Ht T3]. apply andb_true_iff in Ht. destruct Ht as [T1 T2].
    destruct Hv as [V1 V2]. destruct Hm as [M1 M2].
    assert (Hsc : is_derived F id || has_cond_obligation F id = true -> exists s n, t = FFixed (TScalar s) n).
    { intros H. destruct (x_scalar _ _ Hx _ H) as (s & n & E). rewrite M1 in E. inversion E; eauto. }
    assert (Hf : exact (ok_field c F V id t k w) (fault_field c F V id t k w)
      (fst (wmem (wbind (if is_derived F id || is_frozen t k then WRet tt else wcheck k w)
         (fun _ => write_ty c F V id true k t w)))) /\
      ubs (wundef_field c F V id t k w)
      (fst (wmem (wbind (if is_derived F id || is_frozen t k then WRet tt else wcheck k w)
         (fun _ => write_ty c F V id true k t w))))).
    { destruct (match t with FFixed _ _ => true | _ => false end) eqn:Ef.
      - destruct t; try discriminate. cbn [write_ty ok_field fault_field wundef_field wf_ty has_ty] in *.
        apply andb_true_iff in W2. destruct W2 as [W2 W4].
        split; [apply (exact_fixed c F V id k t n w); auto|apply (ubs_fixed c F V id k t n w); auto].
        1,3: destruct t; lia.
        all: intros H; destruct (Hsc H) as (s & m & E); inversion E; subst; eauto.
      - assert (Hd : is_derived F id || has_cond_obligation F id = false).
        { destruct (is_derived F id || has_cond_obligation F id); auto.
          destruct (Hsc eq_refl) as (s & n & ->). discriminate. }
        pose proof Hd as Hd'. apply orb_false_iff in Hd'. destruct Hd' as [D1 D2]. rewrite D1.
        assert (is_frozen t k = false) as -> by (destruct t; try discriminate Ef; reflexivity).
        cbn [orb].
        assert (Ho : ok_field c F V id t k w = (holds k w /\ ok_ty c (mk_env F V) t w))
          by (destruct t; try discriminate Ef; reflexivity).
        assert (Hfa : forall r, fault_field c F V id t k w r =
          ((violates k w /\ r = ValidationFailure) \/ (holds k w /\ fault_ty c (mk_env F V) t w r)))
          by (intros r; destruct t; try discriminate Ef; reflexivity).
        assert (Hu : wundef_field c F V id t k w =
          (senseless k w \/ (holds k w /\ wundef_ty c (mk_env F V) t w)))
          by (destruct t; try discriminate Ef; reflexivity).
        assert (Hno : true = true -> forall t' n, t <> FFixed t' n) by (intros _ t' n ->; discriminate).
        rewrite Ho, Hu. split.
        + eapply exact_iff; [reflexivity| |eapply exact_bind; [eapply exact_wcheck; eauto|]].
          * intros r. rewrite Hfa. reflexivity.
          * intros _. eapply Het; eauto.
        + eapply ubs_bind; [eapply exact_wcheck; eauto|eapply ubs_wcheck; eauto|].
          intros _. eapply IHt; eauto. }
    destruct Hf as [Hf Hg].
    eapply ubs_bind; [apply exact_map; exact Hf|apply ubs_map; exact Hg|].
    intros _. apply (IHgs c F V ws ((id, t) :: G) (id :: seen)); auto.
    + intros x [->|Hin]; auto. apply Hi'. left; auto.
    + intros x Hin. apply Hi'. right; auto.
    + intros i u. simpl. destruct (String.eqb_spec id i); auto. intros E; inversion E; subst; auto.
  - intros c F V id i v G seen _ _ _ _ _ Hv. simpl in Hv. tauto.
  - intros t IHt k al IHal c F V id i v G seen Hx Hw Hi Ht Hs Hv Hd.
    cbn [write_alts wf_alts typed_alts has_alt wundef_alts] in *.
    apply andb_true_iff in Hw. destruct Hw as [W1 W2].
    apply andb_true_iff in Ht. destruct Ht as [Ht T3].
    apply andb_true_iff in Ht. destruct Ht as [Ht T2].
    apply andb_true_iff in Ht. destruct Ht as [_ T1].
    destruct i.
    + eapply ubs_bind; [eapply exact_wcheck; eauto|eapply ubs_wcheck; eauto|].
      intros _. eapply IHt; eauto. discriminate.
    + eapply IHal; eauto.
Qed.

(** ** The cast *)

Lemma wundef_at c F V gs : forall ws, length ws = f_len gs ->
  (wundef_fields c F V gs ws <->
   exists pre id t k v post vpre vpost, gs = f_app pre (FCons id t k post) /\ ws = vpre ++ v :: vpost /\
     length vpre = f_len pre /\ ok_fields c F V pre vpre /\ wundef_field c F V id t k v).
Proof.
  induction gs as [|i t k gs IH]; intros [|w ws] Hl; simpl in Hl; try discriminate.
  - simpl. split; [tauto|]. intros (pre & id & t & k & v & post & vpre & vpost & E & _).
    destruct pre; discriminate.
  - cbn [wundef_fields]. rewrite IH by lia.
    change (match t with
      | FFixed t' _ => fixed_undef c F V i k t' w
      | _ => senseless k w \/ (holds k w /\ wundef_ty c (mk_env F V) t w)
      end) with (wundef_field c F V i t k w). split.
    + intros [H|[H (pre & id & t' & k' & v & post & vpre & vpost & -> & -> & L & O & X)]].
      * exists FNil, i, t, k, w, gs, [], ws. simpl. auto 7.
      * exists (FCons i t k pre), id, t', k', v, post, (w :: vpre), vpost. simpl.
        unfold ok_field in H. auto 8.
    + intros (pre & id & t' & k' & v & post & vpre & vpost & E1 & E2 & L & O & X).
      destruct pre as [|i' t'' k'' pre].
      * destruct vpre; [|discriminate L]. simpl in E1, E2. inversion E1; inversion E2; subst. auto.
      * destruct vpre as [|w' vpre]; [discriminate L|]. simpl in E1, E2. inversion E1; inversion E2; subst.
        right. simpl in O, L. destruct O as [O1 O2]. split; [exact O1|].
        exists pre, id, t', k', v, post, vpre, vpost. auto 8.
Qed.

Lemma write_ub_iff c fs vs : wf fs = true -> typed fs = true -> has_fields fs vs ->
  (fst (wmem (stream_cast c fs vs)) = UB <->
   exists pre id t k v, field_at fs vs pre id t k v /\
     ok_fields c fs vs pre (firstn (f_len pre) vs) /\ wundef_field c fs vs id t k v).
Proof.
  intros Hw Ht Hv. destruct writer_undefs as (_ & Hu & _).
  pose proof (ub_cast fs (Hu fs) c vs Hw Ht Hv) as Hc. unfold ubs in Hc. unfold stream_cast. rewrite Hc.
  rewrite wundef_at by (apply has_fields_length; auto). split.
  - intros (pre & id & t & k & v & post & vpre & vpost & E1 & E2 & L & O & X).
    exists pre, id, t, k, v. split; [exists post, vpre, vpost; auto|]. split; auto.
    assert (firstn (f_len pre) vs = vpre) as ->; auto.
    rewrite E2, <- L, firstn_app, Nat.sub_diag, firstn_all. apply app_nil_r.
  - intros (pre & id & t & k & v & (post & vpre & vpost & E1 & E2 & L) & O & X).
    exists pre, id, t, k, v, post, vpre, vpost. split; auto. split; auto. split; auto. split; auto.
    assert (firstn (f_len pre) vs = vpre) as <-; auto.
    rewrite E2, <- L, firstn_app, Nat.sub_diag, firstn_all. apply app_nil_r.
Qed.

Lemma write_total c fs vs : wf fs = true -> typed fs = true -> has_fields fs vs ->
  writable c fs vs \/
  exists pre id t k v, field_at fs vs pre id t k v /\
     ok_fields c fs vs pre (firstn (f_len pre) vs) /\
     ((exists r, fault_field c fs vs id t k v r) \/ wundef_field c fs vs id t k v).
Proof.
  intros Hw Ht Hv. pose proof (stream_cast_good c True fs vs Hw Ht (or_intror I) Hv) as Hg.
  destruct (stream_cast_exact c fs vs Hw Ht Hv) as [H1 _].
  pose proof (fun r id => write_err_iff c fs vs r id Hw Ht Hv) as H2.
  pose proof (write_ub_iff c fs vs Hw Ht Hv) as H3.
  unfold good in Hg. destruct (fst (wmem (stream_cast c fs vs))) as [[]|[r id]| | |]; try tauto.
  - right. destruct (proj1 (H2 r id) eq_refl) as (pre & t & k & v & X1 & X2 & X3).
    exists pre, id, t, k, v. eauto 6.
  - right. destruct (proj1 H3 eq_refl) as (pre & id & t & k & v & X1 & X2 & X3).
    exists pre, id, t, k, v. auto.
Qed.
