(** The writer emits the encoding of the emitted struct. *)
From Coq Require Import ZifyBool ZifyNat.
From Verif Require Import Read Write WSpec Typing BytesFacts ProgFacts ReadFacts ReadMore Safety.
From Verif Require Import WriteFacts.

(** ** The struct a field is written from *)

Definition sub (G GA : tenv) : Prop := forall id t, tlookup G id = Some t -> tlookup GA id = Some t.

Fixpoint members (GA : tenv) (fs : fields) : Prop :=
  match fs with
  | FNil => True
  | FCons id t _ fs' => tlookup GA id = Some t /\ members GA fs'
  end.

Definition scalar_in (G : tenv) (id : ident) : Prop :=
  exists s n, tlookup G id = Some (FFixed (TScalar s) n).

Lemma tlookup_tafter_notin fs : forall G id, ~ In id (f_ids fs) ->
  tlookup (tafter G fs) id = tlookup G id.
Proof.
  induction fs; intros G id' Hn; simpl in *; auto. rewrite IHfs by tauto. simpl.
  destruct (String.eqb_spec id id'); tauto.
Qed.

Lemma members_tafter fs : forall G, NoDup (f_ids fs) -> members (tafter G fs) fs.
Proof.
  induction fs; intros G Hn; simpl in *; auto. inversion Hn; subst. split; auto.
  rewrite tlookup_tafter_notin by auto. simpl. rewrite String.eqb_refl. auto.
Qed.

Lemma len_typed_scalar G id : len_typed G (LenField id) = true -> scalar_in G id.
Proof.
  simpl. destruct (tlookup G id) as [[[s| | |] n| | | | | |]|] eqn:E; try discriminate.
  intros _. exists s, n. auto.
Qed.

Lemma len_target_scalar G t id : typed_ty G t = true -> ident_is (len_target t) id = true ->
  scalar_in G id.
Proof.
  destruct t as [|elt [i|] b| | |fs recsz [i|] b| |]; simpl; try discriminate; intros Ht Hi;
    apply String.eqb_eq in Hi; subst.
  - apply len_typed_scalar; auto.
  - apply andb_true_iff in Ht. destruct Ht. apply len_typed_scalar; auto.
Qed.

Lemma alts_target_scalar G al id : typed_alts G al = true -> alts_target al id = true -> scalar_in G id.
Proof.
  induction al; simpl; try discriminate. rewrite !andb_true_iff. intros [[[_ H1] _] H2].
  rewrite orb_true_iff. intros [H|H]; auto. eapply len_target_scalar; eauto.
Qed.

Lemma target_scalar G t id : typed_ty G t = true ->
  ident_is (len_target t) id || ident_is (disc_target t) id || has_cond_obligation_of t id = true ->
  scalar_in G id.
Proof.
  intros Ht H. apply orb_true_iff in H. destruct H as [H|H].
  - apply orb_true_iff in H. destruct H as [H|H]; [eapply len_target_scalar; eauto|].
    destruct t as [| | | | | |[i s cases| |] al]; try discriminate. simpl in H.
    apply String.eqb_eq in H. subst. cbn [typed_ty guide_typed] in Ht.
    apply andb_true_iff in Ht. destruct Ht as [Ht _].
    destruct (tlookup G id) as [[[s'| | |] n| | | | | |]|] eqn:E; try discriminate.
    exists s', n. auto.
  - unfold has_cond_obligation_of in H. apply orb_true_iff in H. destruct H as [H|H].
    + destruct t; try discriminate. cbn [cond_target typed_ty] in *.
      apply andb_true_iff in Ht. destruct Ht. eapply len_target_scalar; eauto.
    + destruct t; try discriminate. cbn [typed_ty] in *.
      apply andb_true_iff in Ht. destruct Ht. eapply alts_target_scalar; eauto.
Qed.

Lemma targets_scalar GA id fs : forall G, typed_fields G fs = true -> sub G GA -> members GA fs ->
  is_derived fs id || has_cond_obligation fs id = true -> scalar_in GA id.
Proof.
  induction fs; intros G Ht Hs Hm H; [discriminate|].
  rewrite is_derived_cons in H. cbn [has_cond_obligation typed_fields members] in *.
  apply andb_true_iff in Ht. destruct Ht as [Ht T3]. apply andb_true_iff in Ht. destruct Ht as [T1 T2].
  destruct Hm as [M1 M2].
  assert (H' : ident_is (len_target t) id || ident_is (disc_target t) id || has_cond_obligation_of t id = true
    \/ is_derived fs id || has_cond_obligation fs id = true) by (rewrite !orb_true_iff in *; tauto).
  destruct H' as [H'|H'].
  - destruct (target_scalar _ _ _ T1 H') as (s & n & Hl). exists s, n. auto.
  - eapply (IHfs ((id0, t) :: G)); eauto. intros i u. simpl.
    destruct (String.eqb_spec id0 i); auto. intros E; inversion E; subst; auto.
Qed.

(** What the induction needs to know about the enclosing struct. *)
Record wctx (fs : fields) (vs : list val) : Prop := {
  x_has : env_has (tafter [] fs) (mk_env fs vs);
  x_cov : covers (f_ids fs) (mk_env fs vs);
  x_scalar : forall id, is_derived fs id || has_cond_obligation fs id = true ->
             scalar_in (tafter [] fs) id;
  x_fold : forall c id d, derive_fold c id fs vs d = Some (fold_left record (claims c id fs vs) d);
  x_derived : forall c id, is_derived fs id = true <-> claims c id fs vs <> [];
  x_verify : forall id w, verify_cond (mk_env fs vs) id w fs vs =
             Some (forallb (fun z => z =? w) (cond_claims (mk_env fs vs) id fs vs));
  x_nocond : forall id, has_cond_obligation fs id = false -> cond_claims (mk_env fs vs) id fs vs = []
}.

Lemma wctx_intro fs vs : wf_fields [] fs = true -> typed_fields [] fs = true -> has_fields fs vs ->
  wctx fs vs /\ members (tafter [] fs) fs.
Proof.
  intros Hw Ht Hv. destruct (wf_fields_ids _ _ Hw) as [Hn _].
  pose proof (members_tafter fs [] Hn) as Hm.
  assert (Hc : covers (f_ids fs) (mk_env fs vs)).
  { intros x Hx. apply dom_mk_env; auto. apply has_fields_length; auto. }
  split; auto. split; auto.
  - intros id t Hl. eapply env_has_fields; eauto; tauto.
  - intros id. eapply targets_scalar; eauto. intros i t Hl. discriminate.
  - intros c id d. eapply derive_fold_claims; eauto.
  - intros c id. eapply is_derived_claims; eauto.
  - intros id w. eapply verify_cond_claims; eauto. rewrite app_nil_r. auto.
  - intros id. eapply (verify_cond_claims _ id 0); eauto. rewrite app_nil_r. auto.
Qed.

Lemma env_has_sub G GA e : env_has GA e -> sub G GA -> env_has G e.
Proof. intros H Hs id t Hl. auto. Qed.

Lemma covers_incl seen seen' e : covers seen' e -> incl seen seen' -> covers seen e.
Proof. intros H Hi x Hx. auto. Qed.

(** ** Fixed-size fields *)

Lemma verify_then_write_good c ub fs vs id t n v : wctx fs vs -> ct_wf t = true ->
  match t with TScalar _ | TFloat _ => (n <= csize t)%nat | _ => n = csize t end -> ct_ok t v ->
  (has_cond_obligation fs id = true -> exists s, t = TScalar s) ->
  good ub true (firstn n (enc_ct (c_wire c) t v)) (wmem (verify_then_write c fs vs id t n v)).
Proof.
  intros Hx Hw Hn Hv Hs. unfold verify_then_write.
  assert (Hok : good ub true (firstn n (enc_ct (c_wire c) t v)) (wmem (write_const c t n v))).
  { rewrite write_const_ok by auto. unfold good; simpl; auto. }
  destruct (has_cond_obligation fs id); auto. destruct (Hs eq_refl) as [s ->].
  destruct v; try (simpl in Hv; tauto). rewrite (x_verify _ _ Hx).
  destruct (forallb _ _); auto. unfold good; simpl. split; auto. eauto.
Qed.

Lemma write_fixed_good c ub fs vs id mem k t n v : wctx fs vs -> ct_wf t = true ->
  match t with TScalar _ | TFloat _ => (n <= csize t)%nat | _ => n = csize t end -> ct_ok t v ->
  constr_ok (FFixed t n) k = true -> (tame (FFixed t n) k = true \/ ub) ->
  (is_derived fs id || has_cond_obligation fs id = true -> exists s, t = TScalar s) ->
  (mem = false -> is_derived fs id || has_cond_obligation fs id = false) ->
  good ub true
    (firstn n (enc_ct (c_wire c) t
      (if mem then slot (hd_error (claims c id fs vs)) k (FFixed t n) v else v)))
    (wmem (write_fixed c fs vs id mem k t n v)).
Proof.
  intros Hx Hw Hn Hv Hk Hu Hs Hm. unfold write_fixed.
  assert (Hs' : has_cond_obligation fs id = true -> exists s, t = TScalar s).
  { intros H. apply Hs. rewrite H. apply orb_true_r. }
  pose proof (x_derived _ _ Hx c id) as Hd.
  destruct (is_derived fs id) eqn:Ed.
  - destruct mem; [|specialize (Hm eq_refl); discriminate].
    destruct (Hs eq_refl) as [s ->]. unfold derive_value. rewrite (x_fold _ _ Hx).
    destruct (claims c id fs vs) as [|z l]; [exfalso; apply Hd; auto|]. simpl hd_error.
    cbn [fold_left slot]. change (record (mkD 0 false true) z) with (mkD z true true).
    destruct (record_agreed l z) as [R1 R2].
    destruct (d_agreed _) eqn:Ea; cbn [negb].
    + rewrite R2 by (apply R1; auto). destruct (fits_declared_width c s n z); cbn [negb].
      * apply good_check.
        -- eapply good_wcheck; eauto. simpl. apply conv_in.
        -- apply verify_then_write_good; auto. simpl. apply conv_in.
      * unfold good; simpl. split; auto. eauto.
    + unfold good; simpl. split; auto. eauto.
  - assert (claims c id fs vs = []) as ->.
    { destruct (claims c id fs vs); auto. exfalso. assert (false = true) by (apply Hd; discriminate).
      discriminate. }
    unfold is_frozen. rewrite frozen_pinned. destruct mem; simpl andb.
    + cbn [hd_error]. assert (slot None k (FFixed t n) v = match pinned t k with Some w => w | None => v end)
        as -> by (destruct t; auto).
      destruct (pinned t k) as [w|] eqn:Ep.
      * apply verify_then_write_good; auto. eapply pinned_ok; eauto.
      * apply verify_then_write_good; auto.
    + apply verify_then_write_good; auto.
Qed.

(** ** Every field *)

Definition wr_ty (t : fty) : Prop := forall c ub fs vs id mem k v G seen,
  wctx fs vs -> wf_ty seen t = true -> incl seen (f_ids fs) -> typed_ty G t = true ->
  sub G (tafter [] fs) -> (plain_ty t = true \/ ub) -> (tame t k = true \/ ub) ->
  constr_ok t k = true -> has_ty t v ->
  (is_derived fs id || has_cond_obligation fs id = true -> exists s n, t = FFixed (TScalar s) n) ->
  (mem = false -> is_derived fs id || has_cond_obligation fs id = false) ->
  good ub (atomic t)
    (enc_ty (c_wire c) t
      (if mem then slot (hd_error (claims c id fs vs)) k t (emit_ty c t v) else emit_ty c t v))
    (wmem (write_ty c fs vs id mem k t v)).

Definition wr_fields (gs : fields) : Prop := forall c ub fs vs ws G seen,
  wctx fs vs -> wf_fields seen gs = true -> incl seen (f_ids fs) -> incl (f_ids gs) (f_ids fs) ->
  typed_fields G gs = true -> sub G (tafter [] fs) -> members (tafter [] fs) gs ->
  (plain_fields gs = true \/ ub) -> has_fields gs ws ->
  good ub false
    (enc_fields (c_wire c) gs (emit_fields c (fun id => hd_error (claims c id fs vs)) gs ws))
    (wmem (write_fields c fs vs gs ws)).

Definition wr_alts (al : alts) : Prop := forall c ub fs vs id i v G seen,
  wctx fs vs -> wf_alts seen al = true -> incl seen (f_ids fs) -> typed_alts G al = true ->
  sub G (tafter [] fs) -> (plain_alts al = true \/ ub) -> has_alt al i v ->
  is_derived fs id || has_cond_obligation fs id = false ->
  good ub (atomic_alts al) (enc_alts (c_wire c) al i (emit_alts c al i v))
    (wmem (write_alts c fs vs id al i v)).

Lemma wr_cast gs : wr_fields gs -> forall c ub ws, wf_fields [] gs = true ->
  typed_fields [] gs = true -> (plain_fields gs = true \/ ub) -> has_fields gs ws ->
  good ub false (enc_fields (c_wire c) gs (emitted c gs ws)) (wmem (write_fields c gs ws gs ws)).
Proof.
  intros IH c ub ws Hw Ht Hp Hv. destruct (wctx_intro gs ws Hw Ht Hv) as [Hx Hm].
  eapply IH; eauto.
  - intros x [].
  - apply incl_refl.
  - intros i t Hl. discriminate.
Qed.

Lemma wr_records gs : wr_fields gs -> forall c ub xs, wf_fields [] gs = true ->
  typed_fields [] gs = true -> (plain_fields gs = true \/ ub) ->
  Forall (fun x => match x with VRec vs => has_fields gs vs | _ => False end) xs ->
  good ub false
    (flat_map (fun x => match x with VRec ws => enc_fields (c_wire c) gs ws | _ => [] end)
       (map (fun x => match x with VRec ws => VRec (emitted c gs ws) | _ => x end) xs))
    (wmem (wfor xs (fun x => match x with
                             | VRec ws => wmaperr fst (write_fields c gs ws gs ws)
                             | _ => WStuck
                             end))).
Proof.
  intros IH c ub xs Hw Ht Hp Hv. rewrite flat_map_concat_map, map_map, <- flat_map_concat_map.
  apply good_wfor. eapply Forall_impl; [|exact Hv]. intros x Hx. destruct x; try tauto.
  apply good_maperr. apply wr_cast; auto.
Qed.

Lemma verify_len_good c ub G seen e l size : env_has G e -> covers seen e -> len_wf seen l = true ->
  len_typed G l = true -> good ub true [] (wmem (verify_len c e l size)).
Proof.
  intros Hg Hc Hw Ht. destruct (deduce_len_value c e l (len_value_typed _ _ _ _ Hg Hc Hw Ht)) as [n Hn].
  unfold verify_len. rewrite Hn. destruct l; [unfold good; simpl; auto|].
  destruct (n =? size); unfold good; simpl; auto. split; auto. exists []; auto.
Qed.

Lemma slot_other o k t v : (forall t' n, t <> FFixed t' n) -> slot o k t v = v.
Proof. intros H. destruct t; auto. exfalso. eapply H; eauto. Qed.

Lemma slot_if o k t v (mem : bool) : (forall t' n, t <> FFixed t' n) ->
  (if mem then slot o k t v else v) = v.
Proof. intros H. destruct mem; auto. apply slot_other; auto. Qed.

Lemma writer_emits : (forall t, wr_ty t) /\ (forall gs, wr_fields gs) /\ (forall al, wr_alts al).
Proof.
  apply schema_mutind; unfold wr_ty, wr_alts.
  - intros t n c ub fs vs id mem k v G seen Hx Hw Hi Ht Hs Hp Hk Ho Hv Hd Hm.
    cbn [write_ty wf_ty atomic has_ty emit_ty] in *. apply andb_true_iff in Hw. destruct Hw as [W1 W2].
    apply write_fixed_good; auto.
    + destruct t; lia.
    + intros H. destruct (Hd H) as (s & m & E). inversion E; subst. eauto.
  - intros elt l b c ub fs vs id mem k v G seen Hx Hw Hi Ht Hs Hp Hk Ho Hv Hd Hm.
    rewrite slot_if by discriminate. cbn [write_ty wf_ty typed_ty has_ty emit_ty] in *.
    apply andb_true_iff in Hw. destruct Hw as [W1 W2].
    destruct v; try tauto. apply good_check.
    + eapply verify_len_good; eauto.
      * eapply env_has_sub; [apply (x_has _ _ Hx)|auto].
      * eapply covers_incl; [apply (x_cov _ _ Hx)|auto].
    + rewrite write_var_ok by auto. unfold good. simpl. auto.
  - intros gs IH c ub fs vs id mem k v G seen Hx Hw Hi Ht Hs Hp Hk Ho Hv Hd Hm.
    rewrite slot_if by discriminate. cbn [write_ty wf_ty typed_ty has_ty emit_ty] in *.
    destruct v; try tauto. apply good_maperr. apply (wr_cast gs IH); auto.
  - intros n gs IH c ub fs vs id mem k v G seen Hx Hw Hi Ht Hs Hp Hk Ho Hv Hd Hm.
    rewrite slot_if by discriminate. cbn [write_ty wf_ty typed_ty has_ty emit_ty] in *.
    destruct v; try tauto. destruct Hv as [<- Hv]. rewrite Nat.eqb_refl.
    apply (wr_records gs IH); auto.
  - intros gs IH recsz l b c ub fs vs id mem k v G seen Hx Hw Hi Ht Hs Hp Hk Ho Hv Hd Hm.
    rewrite slot_if by discriminate. cbn [write_ty wf_ty typed_ty has_ty emit_ty] in *.
    apply andb_true_iff in Hw. destruct Hw as [Hw W2].
    apply andb_true_iff in Hw. destruct Hw as [W1 W3].
    apply andb_true_iff in Ht. destruct Ht as [T1 T2].
    destruct v; try tauto. apply good_check.
    + eapply verify_len_good; eauto.
      * eapply env_has_sub; [apply (x_has _ _ Hx)|auto].
      * eapply covers_incl; [apply (x_cov _ _ Hx)|auto].
    + apply (wr_records gs IH); auto.
  - intros b IH p ids c ub fs vs id mem k v G seen Hx Hw Hi Ht Hs Hp Hk Ho Hv Hd Hm.
    rewrite slot_if by discriminate. cbn [write_ty wf_ty typed_ty has_ty emit_ty atomic] in *.
    apply andb_true_iff in Hw. destruct Hw as [W1 W2].
    apply andb_true_iff in Ht. destruct Ht as [_ T2].
    destruct (covers_lookups _ _ ids (covers_incl _ _ _ (x_cov _ _ Hx) Hi) W1) as [args ->].
    assert (Hnd : is_derived fs id || has_cond_obligation fs id = false).
    { destruct (is_derived fs id || has_cond_obligation fs id); auto.
      destruct (Hd eq_refl) as (s & n & E). discriminate. }
    destruct (p args), v; try tauto; try (unfold good; simpl; split; eauto; fail).
    simpl enc_ty. apply (IH c ub fs vs id false CNone v G seen); auto. intros H. congruence.
  - intros g al IH c ub fs vs id mem k v G seen Hx Hw Hi Ht Hs Hp Hk Ho Hv Hd Hm.
    rewrite slot_if by discriminate. cbn [write_ty wf_ty typed_ty has_ty emit_ty atomic] in *.
    apply andb_true_iff in Hw. destruct Hw as [W1 W2].
    apply andb_true_iff in Ht. destruct Ht as [T1 T2].
    assert (Hnd : is_derived fs id || has_cond_obligation fs id = false).
    { destruct (is_derived fs id || has_cond_obligation fs id); auto.
      destruct (Hd eq_refl) as (s & n & E). discriminate. }
    destruct v; try tauto. cbn [enc_ty].
    assert (Hal : good ub (atomic_alts al) (enc_alts (c_wire c) al i (emit_alts c al i v))
              (wmem (write_alts c fs vs id al i v))) by eauto.
    assert (Hg : exists r, deduce_type (mk_env fs vs) g = Some r /\
                           forall j, r = Some j -> (j < a_len al)%nat).
    { eapply deduce_type_total; eauto.
      - eapply env_has_sub; [apply (x_has _ _ Hx)|auto].
      - eapply covers_incl; [apply (x_cov _ _ Hx)|auto]. }
    destruct Hg as (r & Hr & _).
    destruct g; auto; rewrite Hr; (destruct r as [j|];
      [destruct (Nat.eqb j i); auto|]; unfold good; simpl; split; eauto).
  - intros c ub fs vs ws G seen Hx Hw Hi Hi' Ht Hs Hm Hp Hv. destruct ws; [|simpl in Hv; tauto].
    unfold good; simpl; auto.
  - intros id t IHt k gs IHgs c ub fs vs ws G seen Hx Hw Hi Hi' Ht Hs Hm Hp Hv.
    destruct ws as [|w ws]; [simpl in Hv; tauto|].
    cbn [write_fields wf_fields typed_fields plain_fields has_fields members f_ids emit_fields enc_fields] in *.
    apply andb_true_iff in Hw. destruct Hw as [Hw W3]. apply andb_true_iff in Hw. destruct Hw as [W1 W2].
    apply andb_true_iff in Ht. destruct Ht as [Ht T3]. apply andb_true_iff in Ht. destruct Ht as [T1 T2].
    apply plain_and in Hp. destruct Hp as [Hp P3]. apply plain_and in Hp. destruct Hp as [P1 P2].
    destruct Hv as [V1 V2]. destruct Hm as [M1 M2].
    eapply good_seq.
    + apply good_maperr. apply good_check.
      * destruct (is_derived fs id || is_frozen t k); [unfold good; simpl; auto|].
        eapply good_wcheck; eauto.
      * apply (IHt c ub fs vs id true k w G seen); auto; try discriminate.
        intros H. destruct (x_scalar _ _ Hx _ H) as (s & n & E). rewrite M1 in E. inversion E; eauto.
    + apply (IHgs c ub fs vs ws ((id, t) :: G) (id :: seen)); auto.
      * intros x [->|Hin]; auto. apply Hi'. left; auto.
      * intros x Hin. apply Hi'. right; auto.
      * intros i u. simpl. destruct (String.eqb_spec id i); auto. intros E; inversion E; subst; auto.
  - intros c ub fs vs id i v G seen _ _ _ _ _ _ Hv. simpl in Hv. tauto.
  - intros t IHt k al IHal c ub fs vs id i v G seen Hx Hw Hi Ht Hs Hp Hv Hd.
    cbn [write_alts wf_alts typed_alts plain_alts has_alt emit_alts enc_alts atomic_alts] in *.
    apply andb_true_iff in Hw. destruct Hw as [W1 W2].
    apply andb_true_iff in Ht. destruct Ht as [Ht T3].
    apply andb_true_iff in Ht. destruct Ht as [Ht T2].
    apply andb_true_iff in Ht. destruct Ht as [_ T1].
    apply plain_and in Hp. destruct Hp as [Hp P3]. apply plain_and in Hp. destruct Hp as [P1 P2].
    assert (Hgo : forall a b enc (r : outcome reason unit * list Z), good ub a enc r \/ good ub b enc r -> good ub (a && b) enc r).
    { intros a b enc r. unfold good. destruct (fst r); try tauto.
      - intros [[H1 H2]|[H1 H2]]; split; auto; intros H; apply andb_true_iff in H; tauto.
      - intros [(H0 & H1 & H2)|(H0 & H1 & H2)]; split; auto; split; auto;
          intros H; apply andb_true_iff in H; tauto. }
    destruct i.
    + apply Hgo. left. apply good_check; [eapply good_wcheck; eauto|].
      apply (IHt c ub fs vs id false k v G seen); auto. intros H. congruence.
    + apply Hgo. right. eapply IHal; eauto.
Qed.

Lemma stream_cast_good c ub fs vs : wf fs = true -> typed fs = true ->
  (plain_fields fs = true \/ ub) -> has_fields fs vs ->
  good ub false (enc_fields (c_wire c) fs (emitted c fs vs)) (wmem (stream_cast c fs vs)).
Proof. intros. apply wr_cast; auto. apply writer_emits. Qed.
