(** * Reading back what was written *)
From Coq Require Import ZifyBool ZifyNat Lia.
From Verif Require Import PropDefs BytesFacts ProgFacts ReadFacts ReadLemmas ReadMore Safety ReadFinal.
From Verif Require Import WriteFacts WriteMain WriteLoc WriteErr WriteMore WriteFinal.

(** ** Fields by name *)

Lemma field_exists id t F : forall G V, tlookup (tafter G F) id = Some t -> has_fields F V ->
  (exists pre k v, field_at F V pre id t k v) \/ tlookup G id = Some t.
Proof.
  induction F as [|i t0 k0 F IH]; intros G V Hl Hv; simpl in Hl; auto.
  destruct V as [|v V]; [simpl in Hv; tauto|]. destruct Hv as [V1 V2].
  destruct (IH _ _ Hl V2) as [(pre & k & w & post & vpre & vpost & E1 & E2 & L)|H].
  - left. exists (FCons i t0 k0 pre), k, w, post, (v :: vpre), vpost. simpl. subst. auto.
  - simpl in H. destruct (String.eqb_spec i id); auto. inversion H; subst. left.
    exists FNil, k0, v, F, [], V. auto.
Qed.

Lemma lookup_at F V pre id t k v : NoDup (f_ids F) -> field_at F V pre id t k v ->
  lookup (mk_env F V) id = Some v.
Proof.
  intros Hn (post & vpre & vpost & -> & -> & L).
  rewrite f_ids_app in Hn. simpl in Hn. apply NoDup_remove in Hn. destruct Hn as [_ Hn].
  assert (Hi : ~ In id (f_ids pre)) by (intros H; apply Hn, in_or_app; auto). clear Hn.
  revert vpre L Hi. induction pre as [|i t0 k0 pre IH]; intros [|x vpre] L Hi; simpl in *; try discriminate.
  - rewrite String.eqb_refl. auto.
  - destruct (String.eqb_spec i id); [subst; tauto|]. apply IH; auto.
Qed.

Lemma emitted_at c F V pre id t k v : field_at F V pre id t k v ->
  field_at F (emitted c F V) pre id t k (slot (hd_error (claims c id F V)) k t (emit_ty c t v)).
Proof.
  intros Hat. destruct (emitted_split c F V pre id t k v Hat) as (post & vpre & vpost & E1 & E2 & L & E3).
  exists post. rewrite E3. eexists. eexists. split; auto. split; [reflexivity|].
  apply emit_fields_length; auto.
Qed.

Lemma lookup_emitted c F V pre id t k v : wf F = true -> field_at F V pre id t k v ->
  lookup (mk_env F (emitted c F V)) id = Some (slot (hd_error (claims c id F V)) k t (emit_ty c t v)).
Proof.
  intros Hw Hat. eapply lookup_at; [apply (wf_fields_ids _ _ Hw)|]. apply emitted_at; eauto.
Qed.

(** ** What a successful write says about the emitted struct *)

Section Ok.
Variables (c : cfg) (F : fields) (V : list val) (out : list Z).
Hypothesis Hw : wf F = true.
Hypothesis Ht : typed F = true.
Hypothesis Hv : has_fields F V.
Hypothesis Hok : wmem (stream_cast c F V) = (Ok tt, out).

Let E := mk_env F V.
Let E' := mk_env F (emitted c F V).

Lemma scalar_at id : is_derived F id || has_cond_obligation F id = true ->
  exists pre s n k v, field_at F V pre id (FFixed (TScalar s) n) k v.
Proof.
  intros H. destruct (wctx_intro F V Hw Ht Hv) as [Hx _].
  destruct (x_scalar _ _ Hx _ H) as (s & n & Hl).
  destruct (field_exists _ _ _ _ V Hl Hv) as [(pre & k & v & Hat)|Hl']; [|discriminate].
  exists pre, s, n, k, v. auto.
Qed.

Lemma claim_slot id z : In z (claims c id F V) ->
  exists s n, tlookup (tafter [] F) id = Some (FFixed (TScalar s) n) /\
    lookup E' id = Some (VZ (conv s z)) /\ to_size c (conv s z) = z.
Proof.
  intros Hin. destruct (wctx_intro F V Hw Ht Hv) as [Hx _].
  assert (Hcl : claims c id F V <> []) by (intros H; rewrite H in Hin; auto).
  assert (Hd : is_derived F id = true) by (apply (x_derived _ _ Hx c); auto).
  destruct (scalar_at id) as (pre & s & n & k & v & Hat); [rewrite Hd; auto|].
  destruct (ok_at _ _ _ _ _ _ _ _ _ Hw Ht Hv Hat Hok) as (part & rest & Hp & _).
  destruct (derived_prog c _ _ _ _ _ _ _ _ Hw Ht Hv Hat Hcl) as (z0 & l & Hc & Hp').
  rewrite Hp' in Hp. destruct (forallb (Z.eqb z0) l) eqn:Ef; [|discriminate].
  destruct (fits_declared_width c s n z0) eqn:Efit; [|discriminate].
  assert (z = z0) as ->.
  { rewrite Hc in Hin. destruct Hin as [|Hin]; auto. rewrite forallb_forall in Ef.
    symmetry. apply Z.eqb_eq. auto. }
  destruct (at_facts F V pre id _ k v Hw Ht Hv Hat)
    as (post & vpre & vpost & E1 & E2 & L & V1 & V2 & V3 & W1 & W2 & W3 & T1 & T2 & T4 & T3 & _ & Hm & Hs & Hl).
  exists s, n. split; auto. split.
  - unfold E'. rewrite (lookup_emitted c _ _ _ _ _ _ _ Hw Hat), Hc. auto.
  - unfold fits_declared_width in Efit. apply andb_true_iff in Efit. lia.
Qed.

Lemma cond_slot id m : In m (cond_claims E id F V) ->
  exists z, lookup E' id = Some (VZ z) /\ to_size c z = m.
Proof.
  intros Hin. destruct (wctx_intro F V Hw Ht Hv) as [Hx _].
  destruct (scalar_at id) as (pre & s & n & k & v & Hat).
  { destruct (has_cond_obligation F id) eqn:E0; [apply orb_true_r|].
    unfold E in Hin. rewrite (x_nocond _ _ Hx) in Hin by auto. destruct Hin. }
  destruct (at_facts F V pre id _ k v Hw Ht Hv Hat)
    as (post & vpre & vpost & E1 & E2 & L & V1 & V2 & V3 & W1 & W2 & W3 & T1 & T2 & T4 & T3 & _ & Hm & Hs & Hl).
  assert (Hsl : has_ty (FFixed (TScalar s) n) (slot (hd_error (claims c id F V)) k (FFixed (TScalar s) n) (emit_ty c (FFixed (TScalar s) n) v))).
  { eapply slot_has; eauto. }
  destruct (slot _ _ _ _) as [z| | | | | |] eqn:Es; try (simpl in Hsl; tauto).
  exists z. split.
  - unfold E'. rewrite (lookup_emitted c _ _ _ _ _ _ _ Hw Hat). rewrite Es. auto.
  - destruct (Z.eq_dec m (to_size c z)); auto. exfalso.
    destruct (unverified c _ _ _ _ _ _ _ _ _ Hw Ht Hv Hat Hin Es) as (r & _ & Hf); auto.
    unfold fails_with in Hf. rewrite Hok in Hf. auto.
Qed.

Definition lenok (id : ident) (n : Z) : Prop :=
  exists z, lookup E' id = Some (VZ z) /\ n = z mod 256 ^ Z.of_nat (c_szw c).

Definition ready (t : fty) (v : val) : Prop :=
  (forall id n, sized_by id t v = Some n -> lenok id (Z.of_nat n)) /\
  (forall id m, In m (cond_claim E id t v) -> lenok id m) /\
  (forall id s cases al i w, t = FUnion (GField id s cases) al -> v = VAlt i w ->
     exists si mv s' n, nth_error cases i = Some (si, mv) /\
       tlookup (tafter [] F) id = Some (FFixed (TScalar s') n) /\
       lookup E' id = Some (VZ (conv s' (mv mod 256 ^ Z.of_nat (c_szw c))))).

Lemma ready_at pre id t k v : field_at F V pre id t k v -> ready t v.
Proof.
  intros Hat. split; [|split].
  - intros i n H. destruct (claim_slot i (Z.of_nat n)) as (s & w & _ & H1 & H2).
    { eapply claim_in; eauto. apply sized_claim; auto. }
    exists (conv s (Z.of_nat n)). split; auto.
  - intros i m H. destruct (cond_slot i m) as (z & H1 & H2).
    { eapply cond_claim_in; eauto. }
    exists z. auto.
  - intros i s cases al j w -> ->.
    destruct (at_facts F V pre id _ k _ Hw Ht Hv Hat)
      as (post & vpre & vpost & E1 & E2 & L & V1 & V2 & V3 & W1 & W2 & W3 & T1 & T2 & T4 & T3 & _ & Hm & Hs & Hl).
    simpl in T2. apply andb_true_iff in T2. destruct T2 as [T2 _].
    destruct (tlookup (tafter [] pre) i) as [[[]| | | | | |]|] eqn:El; try discriminate.
    apply andb_true_iff in T2. destruct T2 as [_ T2].
    assert (Hj : (j < length cases)%nat).
    { apply Nat.eqb_eq in T2. rewrite T2. clear - V2. simpl in V2. revert j V2.
      induction al; intros j V2; simpl in *; [tauto|]. destruct j; [lia|]. apply IHal in V2. lia. }
    destruct (nth_error cases j) as [[si mv]|] eqn:En; [|apply nth_error_None in En; lia].
    destruct (claim_slot i (mv mod 256 ^ Z.of_nat (c_szw c))) as (s' & w' & H1 & H2 & _).
    { eapply claim_in; eauto. simpl. rewrite String.eqb_refl, En. simpl. auto. }
    exists si, mv, s', w'. auto.
Qed.

Lemma holds_at pre id t k v : field_at F V pre id t k v -> pin_ok t k = true ->
  (k = CNone \/ emit_ty c t v = v) ->
  holds k (slot (hd_error (claims c id F V)) k t (emit_ty c t v)).
Proof.
  intros Hat Hpin Hsame.
  destruct (ok_at _ _ _ _ _ _ _ _ _ Hw Ht Hv Hat Hok) as (part & rest & Hp & _).
  destruct (at_facts F V pre id _ k _ Hw Ht Hv Hat)
    as (post & vpre & vpost & E1 & E2 & L & V1 & V2 & V3 & W1 & W2 & W3 & T1 & T2 & T4 & T3 & Hx & Hm & Hs & Hl).
  assert (Hchk : forall w o, wmem (wcheck k w) = (Ok tt, o) -> holds k w).
  { intros w o Hc. apply check_holds. unfold wcheck in Hc. destruct (check k w); auto; discriminate. }
  destruct t as [t' n| | | | | |];
    [|rewrite (other_prog c _ _ _ _ _ _ _ Hw Ht Hv Hat) in Hp by discriminate;
      apply wmem_bind_ok in Hp; destruct Hp as ([] & o1 & o2 & Hp & _);
      cbn [slot]; (destruct Hsame as [-> | ->]; [simpl; auto | eauto])..].
  destruct (claims c id F V) as [|z l] eqn:Ecl.
  - assert (Hd : is_derived F id = false).
    { destruct (is_derived F id) eqn:E0; auto. apply (x_derived _ _ Hx c) in E0. congruence. }
    unfold field_prog in Hp. rewrite Hd in Hp. simpl orb in Hp.
    unfold is_frozen in Hp. rewrite frozen_pinned in Hp. cbn [hd_error].
    assert (slot None k (FFixed t' n) (emit_ty c (FFixed t' n) v) = match pinned t' k with Some w => w | None => v end) as ->.
    { cbn [slot emit_ty]. destruct t'; auto. }
    destruct (pinned t' k) as [w|] eqn:Epin.
    + eapply pinned_holds; eauto. destruct t'; auto; destruct k; auto; simpl in Epin, Hpin.
      * destruct o; try discriminate. auto.
      * destruct neg; try discriminate. auto.
      * destruct o; try discriminate. apply feqb_fin. auto.
    + apply wmem_bind_ok in Hp. destruct Hp as ([] & o1 & o2 & Hp & _). eauto.
  - assert (Hcl : claims c id F V <> []) by (rewrite Ecl; discriminate).
    destruct (derived_scalar c _ _ _ _ _ _ _ Hw Ht Hv Hat Hcl) as [_ (s & n' & E0 & _)].
    inversion E0; subst t' n'.
    destruct (derived_prog c _ _ _ _ _ _ _ _ Hw Ht Hv Hat Hcl) as (z0 & l0 & Hc & Hp').
    rewrite Ecl in Hc. inversion Hc; subst z0 l0. rewrite Hp' in Hp.
    destruct (forallb (Z.eqb z) l); [|discriminate].
    destruct (fits_declared_width c s n z); [|discriminate].
    apply wmem_bind_ok in Hp. destruct Hp as ([] & o1 & o2 & Hp & _). cbn [hd_error slot]. eauto.
Qed.

End Ok.

(** ** Validity of the emitted struct *)

Fixpoint each (Q : ident -> fty -> constr -> val -> Prop) (gs : fields) (ws : list val) : Prop :=
  match gs, ws with
  | FCons id t k gs', w :: ws' => Q id t k w /\ each Q gs' ws'
  | _, _ => True
  end.

Lemma each_at (Q : ident -> fty -> constr -> val -> Prop) F V : (forall pre id t k v, field_at F V pre id t k v -> Q id t k v) -> each Q F V.
Proof.
  intros H.
  assert (G : forall gs ws pre vpre, F = f_app pre gs -> V = vpre ++ ws -> length vpre = f_len pre -> each Q gs ws).
  { induction gs as [|id t k gs IH]; intros ws pre vpre E1 E2 L; simpl; auto.
    destruct ws as [|w ws]; auto. split.
    - apply (H pre). exists gs, vpre, ws. auto.
    - apply (IH ws (f_app pre (FCons id t k FNil)) (vpre ++ [w])).
      + rewrite f_app_assoc. auto.
      + rewrite <- app_assoc. auto.
      + rewrite app_length. simpl. rewrite L. clear. induction pre; simpl; lia. }
  apply (G F V FNil []); auto.
Qed.

Lemma told_apart_spec s cases : forall seen, told_apart s seen cases = true ->
  forall i si mv, nth_error cases i = Some (si, mv) ->
  (forall e, In e seen -> cxx_eq s mv (fst e) (snd e) = false) /\
  (forall j sv, (j < i)%nat -> nth_error cases j = Some sv -> cxx_eq s mv (fst sv) (snd sv) = false).
Proof.
  induction cases as [|x cases IH]; intros seen H i si mv Hn; [destruct i; discriminate|].
  simpl in H. apply andb_true_iff in H. destruct H as [H1 H2]. destruct i as [|i]; simpl in Hn.
  - inversion Hn; subst x. split; [|intros; lia]. intros e Hin. rewrite forallb_forall in H1.
    apply negb_true_iff. apply (H1 e Hin).
  - destruct (IH _ H2 _ _ _ Hn) as [G1 G2]. split.
    + intros e Hin. apply G1. right; auto.
    + intros [|j] sv Hj Hs; simpl in Hs.
      * inversion Hs; subst. apply G1. left; auto.
      * apply (G2 j); auto. lia.
Qed.

Lemma cases_ok_first c s cases i si mv : cases_ok c s cases = true ->
  nth_error cases i = Some (si, mv) ->
  conv s (mv mod 256 ^ Z.of_nat (c_szw c)) = mv /\ first_case s mv cases i.
Proof.
  unfold cases_ok. rewrite andb_true_iff, forallb_forall. intros [H1 H2] Hn.
  specialize (H1 _ (nth_error_In _ _ Hn)). simpl in H1. rewrite !andb_true_iff in H1.
  destruct H1 as [[H1 H3] H4]. split.
  - rewrite Z.mod_small by lia. apply conv_id; auto.
  - split.
    + exists (si, mv). split; auto. unfold cxx_eq. simpl. apply Z.eqb_refl.
    + apply (told_apart_spec s cases [] H2 i si mv Hn).
Qed.

Lemma guide_sync_selects E E' g i : match g with GField _ _ _ => False | _ => True end ->
  guide_sync E E' g -> selects E g i -> selects E' g i.
Proof.
  destruct g; simpl; [tauto| |]; intros _ Hs.
  - unfold same_view in Hs. rewrite Hs. auto.
  - intros [(p & ids & args & H1 & H2 & H3) H4]. rewrite Forall_forall in Hs. split.
    + exists p, ids, args. split; auto. split; auto.
      rewrite <- (Hs _ (nth_error_In _ _ H1)). auto.
    + intros j p' ids' Hj Hn. destruct (H4 j p' ids' Hj Hn) as (vs & H5 & H6).
      exists vs. split; auto. rewrite <- (Hs _ (nth_error_In _ _ Hn)). auto.
Qed.

Definition fieldok (c : cfg) (F : fields) (V : list val) (id : ident) (t : fty) (k : constr) (v : val) : Prop :=
  ready c F V t v /\
  (pin_ok t k = true -> (k = CNone \/ emit_ty c t v = v) ->
     holds k (slot (hd_error (claims c id F V)) k t (emit_ty c t v))) /\
  exists o, wmem (write_ty c F V id true k t v) = (Ok tt, o).

Lemma fieldok_at c F V out : wf F = true -> typed F = true -> has_fields F V ->
  wmem (stream_cast c F V) = (Ok tt, out) -> each (fieldok c F V) F V.
Proof.
  intros Hw Ht Hv Hok. apply each_at. intros pre id t k v Hat. split; [|split].
  - eapply ready_at; eauto.
  - eapply holds_at; eauto.
  - destruct (ok_at _ _ _ _ _ _ _ _ _ Hw Ht Hv Hat Hok) as (part & rest & Hp & _).
    unfold field_prog in Hp. apply wmem_bind_ok in Hp.
    destruct Hp as ([] & o1 & o2 & _ & Hp & _). eauto.
Qed.

Lemma wfor_ok {A} (f : A -> wprog reason unit) l : forall out, wmem (wfor l f) = (Ok tt, out) ->
  forall x, In x l -> exists o, wmem (f x) = (Ok tt, o).
Proof.
  induction l as [|a l IH]; intros out H x Hin; [destruct Hin|].
  simpl in H. apply wmem_bind_ok in H. destruct H as ([] & o1 & o2 & H1 & H2 & _).
  destruct Hin as [<-|Hin]; eauto.
Qed.

Lemma verify_len_ok c E E' l n o : len_sync E E' l -> wmem (verify_len c E l (Z.of_nat n)) = (Ok tt, o) ->
  (forall id, l = LenField id -> exists z, lookup E' id = Some (VZ z) /\ Z.of_nat n = z mod 256 ^ Z.of_nat (c_szw c)) ->
  len_is c E' l n.
Proof.
  destruct l as [id|f ids]; simpl; intros Hs Hok H1.
  - apply H1; auto.
  - unfold same_view in Hs. destruct (lookups E ids) as [args|] eqn:El; [|discriminate].
    exists args. split; auto. simpl in Hok.
    destruct (Z.eqb_spec (to_size c (f args)) (Z.of_nat n)); [|discriminate]. rewrite <- e. auto.
Qed.

Lemma len_ok' c F V t v l n o :
  (t = FVar (match t with FVar e _ _ => e | _ => TScalar SBool end) l (match t with FVar _ _ b => b | _ => None end) \/
   exists gs r b, t = FVecRec gs r l b) ->
  (exists xs, v = VSeq xs /\ length xs = n) ->
  ready c F V t v -> len_sync (mk_env F V) (mk_env F (emitted c F V)) l ->
  wmem (verify_len c (mk_env F V) l (Z.of_nat n)) = (Ok tt, o) ->
  len_is c (mk_env F (emitted c F V)) l n.
Proof.
  intros Hs (xs & -> & Hn) (R & _) Hy Hok.
  assert (Hl : forall id, l = LenField id -> lenok c F V id (Z.of_nat n)).
  { intros id ->. apply R. destruct Hs as [->|(gs & r & b & ->)]; simpl; rewrite String.eqb_refl, Hn; auto. }
  eapply verify_len_ok; eauto.
Qed.

Lemma flat_ready c F V t v : flat t = true ->
  (forall id n, sized_by id t v = Some n -> lenok c F V id (Z.of_nat n)) -> ready c F V t v.
Proof.
  intros Hf H. split; auto. split.
  - intros id m. destruct t; try discriminate; simpl; tauto.
  - intros. subst. discriminate.
Qed.

Lemma sub_refl G : sub G G.
Proof. intros x t H. auto. Qed.

Lemma write_valid :
  (forall t c F V id mem k v G seen o, typed_ty G t = true -> sub G (tafter [] F) -> wf_ty seen t = true ->
     has_ty t v -> clean_ty c t = true ->
     sync_ty c (mk_env F V) (mk_env F (emitted c F V)) t v -> sized_ty c t (emit_ty c t v) ->
     ready c F V t v -> wmem (write_ty c F V id mem k t v) = (Ok tt, o) ->
     valid_ty c (mk_env F (emitted c F V)) t (emit_ty c t v)) /\
  (forall gs c F V G seen ws, typed_fields G gs = true -> sub G (tafter [] F) ->
     members (tafter [] F) gs -> wf_fields seen gs = true ->
     has_fields gs ws -> clean_fields c gs = true ->
     sync_in c (mk_env F V) (mk_env F (emitted c F V)) gs ws ->
     sized_fields c gs (emit_fields c (fun id => hd_error (claims c id F V)) gs ws) ->
     each (fieldok c F V) gs ws ->
     valid_fields c (mk_env F (emitted c F V)) gs (emit_fields c (fun id => hd_error (claims c id F V)) gs ws)) /\
  (forall al c F V id i v G seen o, typed_alts G al = true -> sub G (tafter [] F) -> wf_alts seen al = true ->
     has_alt al i v -> clean_alts c al = true ->
     sync_alts c (mk_env F V) (mk_env F (emitted c F V)) al i v -> sized_alts c al i (emit_alts c al i v) ->
     (forall t k, a_nth i al = Some (t, k) ->
        forall id n, sized_by id t v = Some n -> lenok c F V id (Z.of_nat n)) ->
     wmem (write_alts c F V id al i v) = (Ok tt, o) ->
     valid_alts c (mk_env F (emitted c F V)) al i (emit_alts c al i v)).
Proof.
  assert (Hrec : forall gs,
    (forall c F V G seen ws, typed_fields G gs = true -> sub G (tafter [] F) ->
     members (tafter [] F) gs -> wf_fields seen gs = true ->
     has_fields gs ws -> clean_fields c gs = true ->
     sync_in c (mk_env F V) (mk_env F (emitted c F V)) gs ws ->
     sized_fields c gs (emit_fields c (fun id => hd_error (claims c id F V)) gs ws) ->
     each (fieldok c F V) gs ws ->
     valid_fields c (mk_env F (emitted c F V)) gs (emit_fields c (fun id => hd_error (claims c id F V)) gs ws)) ->
    forall c ws o, typed_fields [] gs = true -> wf_fields [] gs = true -> has_fields gs ws ->
      clean_fields c gs = true -> in_sync c gs ws -> sized_fields c gs (emitted c gs ws) ->
      wmem (wmaperr fst (write_fields c gs ws gs ws)) = (Ok tt, o) ->
      valid_fields c (mk_env gs (emitted c gs ws)) gs (emitted c gs ws)).
  { intros gs IH c ws o Ht Hw Hv Hc Hy Hz Hok. apply wmem_maperr_ok in Hok.
    destruct (wctx_intro gs ws Hw Ht Hv) as [_ Hm].
    apply (IH c gs ws [] []); auto.
    - intros x t H. discriminate.
    - eapply fieldok_at; eauto. }
  apply schema_mutind.
  - intros t n c F V id mem k v G seen o Ht Hs Hw Hv Hc Hy Hz R Hok. simpl in *. destruct v; auto.
  - intros elt l b c F V id mem k v G seen o Ht Hs Hw Hv Hc Hy Hz R Hok.
    destruct v; simpl in Hv; try tauto. cbn [write_ty emit_ty sized_ty sync_ty valid_ty] in *.
    apply wmem_bind_ok in Hok. destruct Hok as ([] & o1 & o2 & H1 & _).
    exists l0. split; auto. split; auto. split; auto.
    eapply (len_ok' c F V (FVar elt l b) (VSeq l0)); eauto.
  - intros gs IH c F V id mem k v G seen o Ht Hs Hw Hv Hc Hy Hz R Hok.
    destruct v; simpl in Hv; try tauto. cbn [write_ty emit_ty sized_ty sync_ty valid_ty wf_ty typed_ty clean_ty] in *.
    eexists. split; [reflexivity|]. eapply Hrec; eauto.
  - intros n gs IH c F V id mem k v G seen o Ht Hs Hw Hv Hc Hy Hz R Hok.
    destruct v; simpl in Hv; try tauto. destruct Hv as [Hl Hv].
    cbn [write_ty emit_ty sized_ty sync_ty valid_ty wf_ty typed_ty clean_ty] in *.
    rewrite Hl, Nat.eqb_refl in Hok. eexists. split; [reflexivity|]. rewrite map_length. split; auto.
    pose proof (wfor_ok _ _ _ Hok) as Hx. clear Hok Hl R.
    rewrite Forall_map in *. rewrite Forall_forall in *. intros x Hin.
    specialize (Hv x Hin). specialize (Hy x Hin). specialize (Hz x Hin). destruct (Hx x Hin) as [o' Ho'].
    destruct x; try tauto. eexists. split; [reflexivity|]. eapply Hrec; eauto.
  - intros gs IH recsz l b c F V id mem k v G seen o Ht Hs Hw Hv Hc Hy Hz R Hok.
    destruct v; simpl in Hv; try tauto.
    cbn [write_ty emit_ty sized_ty sync_ty valid_ty wf_ty typed_ty clean_ty] in *.
    apply andb_true_iff in Ht. destruct Ht as [Ht _].
    apply andb_true_iff in Hw. destruct Hw as [Hw _]. apply andb_true_iff in Hw. destruct Hw as [Hw _].
    destruct Hy as [Hy1 Hy]. destruct Hz as [Hz1 Hz]. rewrite map_length in Hz1.
    apply wmem_bind_ok in Hok. destruct Hok as ([] & o1 & o2 & H1 & Hok & _).
    eexists. split; [reflexivity|]. rewrite map_length. split; [|split; auto].
    + pose proof (wfor_ok _ _ _ Hok) as Hx. clear Hok H1 R.
      rewrite Forall_map in *. rewrite Forall_forall in *. intros x Hin.
      specialize (Hv x Hin). specialize (Hy x Hin). specialize (Hz x Hin). destruct (Hx x Hin) as [o' Ho'].
      destruct x; try tauto. eexists. split; [reflexivity|]. eapply Hrec; eauto.
    + eapply (len_ok' c F V (FVecRec gs recsz l b) (VSeq l0)); eauto.
  - intros t IH p ids c F V id mem k v G seen o Ht Hs Hw Hv Hc Hy Hz R Hok.
    cbn [write_ty sized_ty sync_ty valid_ty wf_ty typed_ty clean_ty has_ty] in *.
    apply andb_true_iff in Ht. destruct Ht as [Hf Ht]. apply andb_true_iff in Hw. destruct Hw as [_ Hw].
    destruct (lookups (mk_env F V) ids) as [args|] eqn:El; [|discriminate].
    destruct v; try tauto.
    + exists args. unfold same_view in Hy. rewrite <- Hy. split; auto.
      destruct (p args); [discriminate|]. auto.
    + destruct Hy as [Hy1 Hy]. unfold same_view in Hy1.
      exists args. rewrite <- Hy1. split; auto. destruct (p args) eqn:Ep; [|discriminate].
      eexists. split; [reflexivity|]. eapply IH; eauto. apply flat_ready; auto.
      intros i n Hsz. destruct R as (_ & R & _). apply (R i). simpl. rewrite El, Ep, Hsz. simpl. auto.
  - intros g al IH c F V id mem k v G seen o Ht Hs Hw Hv Hc Hy Hz R Hok.
    cbn [write_ty sized_ty sync_ty valid_ty wf_ty typed_ty clean_ty has_ty] in *.
    apply andb_true_iff in Ht. destruct Ht as [Hg Ht]. apply andb_true_iff in Hw. destruct Hw as [_ Hw].
    apply andb_true_iff in Hc. destruct Hc as [Hcg Hc].
    destruct v as [| | | | |i v|]; try tauto. destruct Hy as [Hy1 Hy].
    cbn [emit_ty sized_ty] in *.
    exists i. eexists. split; [reflexivity|]. destruct R as (_ & R2 & R3). split.
    + destruct g as [i0 s cases|f r ids cases|brs].
      * destruct (R3 i0 s cases al i v eq_refl eq_refl) as (si & mv & s' & n & H1 & H2 & H3).
        assert (s' = s) as ->.
        { simpl in Hg. destruct (tlookup G i0) as [[[]| | | | | |]|] eqn:El; try discriminate.
          apply Hs in El. rewrite H2 in El. inversion El; subst. apply andb_true_iff in Hg. destruct Hg as [Hg _].
          clear - Hg. destruct s, s0; simpl in Hg; try discriminate; auto.
          rewrite andb_true_iff, Nat.eqb_eq in Hg. destruct Hg as [-> Hg]. apply Bool.eqb_prop in Hg. subst; auto. }
        destruct (cases_ok_first c s cases i si mv Hcg H1) as [H4 H5]. simpl.
        exists mv. rewrite H3, H4. auto.
      * apply (guide_sync_selects (mk_env F V)); auto. apply deduce_type_iff.
        destruct (deduce_type _ _) as [[j|]|]; try discriminate.
        destruct (Nat.eqb_spec j i); [subst; auto|discriminate].
      * apply (guide_sync_selects (mk_env F V)); auto. apply deduce_type_iff.
        destruct (deduce_type _ _) as [[j|]|]; try discriminate.
        destruct (Nat.eqb_spec j i); [subst; auto|discriminate].
    + assert (Hok' : exists o', wmem (write_alts c F V id al i v) = (Ok tt, o')).
      { destruct g; eauto; destruct (deduce_type _ _) as [[j|]|]; try discriminate;
          destruct (Nat.eqb j i); try discriminate; eauto. }
      destruct Hok' as [o' Hok']. eapply IH; eauto.
      intros t k' Hn i' n Hsz. apply (R2 i'). simpl. rewrite Hn, Hsz. simpl. auto.
  - intros c F V G seen ws Ht Hs Hm Hw Hv Hc Hy Hz HQ. destruct ws; simpl in *; auto.
  - intros id t IHt k gs IHgs c F V G seen ws Ht Hs Hm Hw Hv Hc Hy Hz HQ.
    destruct ws as [|w ws]; [simpl in Hv; tauto|].
    cbn [typed_fields members wf_fields has_fields clean_fields sync_in emit_fields sized_fields each valid_fields] in *.
    apply andb_true_iff in Ht. destruct Ht as [Ht T3]. apply andb_true_iff in Ht. destruct Ht as [T1 T2].
    apply andb_true_iff in Hw. destruct Hw as [Hw W3]. apply andb_true_iff in Hw. destruct Hw as [W1 W2].
    apply andb_true_iff in Hc. destruct Hc as [Hc C3]. apply andb_true_iff in Hc. destruct Hc as [C1 C2].
    destruct Hv as [V1 V2]. destruct Hm as [M1 M2]. destruct Hy as (Y1 & Y2 & Y3). destruct Hz as [Z1 Z2].
    destruct HQ as [(Q1 & Q2 & o & Q3) Q4]. split; [|split].
    + assert (Hcase : (exists t' n, t = FFixed t' n) \/
                      slot (hd_error (claims c id F V)) k t (emit_ty c t w) = emit_ty c t w).
      { destruct t; eauto. }
      destruct Hcase as [(t' & n & ->)|Es].
      * cbn [valid_ty]. split; [|exact Z1].
        apply (slot_has G (hd_error (claims c id F V)) k (FFixed t' n) (emit_ty c (FFixed t' n) w)); auto.
      * rewrite Es in *. eapply IHt; eauto.
    + apply Q2; auto.
    + eapply IHgs; eauto. intros i u. simpl. destruct (String.eqb_spec id i); auto.
      intros E; inversion E; subst; auto.
  - intros c F V id i v G seen o _ _ _ Hv. simpl in Hv. tauto.
  - intros t IHt k al IHal c F V id i v G seen o Ht Hs Hw Hv Hc Hy Hz R Hok.
    cbn [typed_alts wf_alts has_alt clean_alts sync_alts emit_alts sized_alts valid_alts write_alts a_nth] in *.
    apply andb_true_iff in Ht. destruct Ht as [Ht T3]. apply andb_true_iff in Ht. destruct Ht as [Ht T2].
    apply andb_true_iff in Ht. destruct Ht as [Tf T1].
    apply andb_true_iff in Hw. destruct Hw as [W1 W2].
    apply andb_true_iff in Hc. destruct Hc as [C1 C2].
    destruct i as [|i].
    + destruct Hy as [Y1 Y2]. apply wmem_bind_ok in Hok. destruct Hok as ([] & o1 & o2 & H1 & H2 & _).
      split.
      * eapply IHt; eauto. apply flat_ready; auto. apply (R t k); auto.
      * destruct Y2 as [->|Y2]; [simpl; auto|]. rewrite Y2. apply check_holds. unfold wcheck in H1.
        destruct (check k v); auto; discriminate.
    + eapply IHal; eauto.
Qed.

Lemma emitted_valid c fs vs out : wf fs = true -> typed fs = true -> has_fields fs vs ->
  clean_fields c fs = true -> in_sync c fs vs -> sized_fields c fs (emitted c fs vs) ->
  wmem (stream_cast c fs vs) = (Ok tt, out) -> valid c fs (emitted c fs vs).
Proof.
  intros Hw Ht Hv Hc Hy Hz Hok. destruct (wctx_intro fs vs Hw Ht Hv) as [_ Hm].
  destruct write_valid as (_ & H & _). apply (H fs c fs vs [] [] vs); auto.
  - intros x t E. discriminate.
  - eapply fieldok_at; eauto.
Qed.

Lemma write_encodes c fs vs out : wf fs = true -> typed fs = true -> has_fields fs vs ->
  wmem (stream_cast c fs vs) = (Ok tt, out) -> out = enc_fields (c_wire c) fs (emitted c fs vs).
Proof.
  intros Hw Ht Hv Hok. pose proof (stream_cast_good c True fs vs Hw Ht (or_intror I) Hv) as G.
  rewrite Hok in G. exact G.
Qed.

Lemma round_trip c fs vs out rest : wf fs = true -> typed fs = true -> has_fields fs vs ->
  clean_fields c fs = true -> in_sync c fs vs -> sized_fields c fs (emitted c fs vs) ->
  wmem (stream_cast c fs vs) = (Ok tt, out) ->
  rmem (struct_cast c fs) (out ++ rest) = (Ok (emitted c fs vs), rest).
Proof.
  intros Hw Ht Hv Hc Hy Hz Hok. rewrite (write_encodes _ _ _ _ Hw Ht Hv Hok).
  apply read_complete; auto. eapply emitted_valid; eauto.
Qed.
