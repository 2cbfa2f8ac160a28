(** * When what callables see is what goes out *)
From Coq Require Import ZifyBool ZifyNat Lia.
From Verif Require Import PropDefs BytesFacts ProgFacts ReadFacts ReadLemmas ReadMore Safety ReadFinal.
From Verif Require Import WriteFacts WriteMain WriteLoc WriteErr WriteRel WriteMore WriteFinal RTrip.

Lemma atomic_emit c :
  (forall t v, atomic t = true -> emit_ty c t v = v) /\
  (forall fs : fields, True) /\
  (forall al i v, atomic_alts al = true -> emit_alts c al i v = v).
Proof.
  apply schema_mutind; try (intros; exact I).
  - intros t n v _. destruct v; reflexivity.
  - intros t l b v _. destruct v; reflexivity.
  - intros fs _ v H. discriminate.
  - intros n fs _ v H. discriminate.
  - intros fs _ r l b v H. discriminate.
  - intros b IH p ids v H. destruct v; auto. simpl in *. rewrite IH; auto.
  - intros g al IH v H. destruct v; auto. simpl in *. rewrite IH; auto.
  - intros i v _. reflexivity.
  - intros t IH k al IHal i v H. simpl in H. apply andb_true_iff in H. destruct H.
    destruct i; simpl; auto.
Qed.

Lemma not_overwritten c F V pre id t k v : wf F = true -> typed F = true -> has_fields F V ->
  field_at F V pre id t k v -> overwritten F id t k = false ->
  slot (hd_error (claims c id F V)) k t (emit_ty c t v) = emit_ty c t v.
Proof.
  intros Hw Ht Hv Hat Ho. destruct t; auto. unfold overwritten in Ho.
  apply orb_false_iff in Ho. destruct Ho as [H1 H2].
  assert (claims c id F V = []) as ->.
  { destruct (claims c id F V) as [|z l] eqn:Ec; auto. exfalso.
    destruct (wctx_intro F V Hw Ht Hv) as [Hx _].
    assert (Hd : is_derived F id = true) by (apply (x_derived _ _ Hx c); congruence).
    rewrite is_derived_sources in Hd. congruence. }
  simpl. destruct (pinned t k); [discriminate|]. destruct t; auto.
Qed.

Lemma field_of_at id F : forall V t k, field_of F id = Some (t, k) -> has_fields F V ->
  exists pre v, field_at F V pre id t k v.
Proof.
  induction F as [|i t0 k0 F IH]; intros [|v V] t k H Hv; simpl in *; try discriminate; try tauto.
  destruct Hv as [V1 V2]. destruct (String.eqb_spec i id).
  - inversion H; subst. exists FNil, v, F, [], V. auto.
  - destruct (IH _ _ _ H V2) as (pre & w & post & vpre & vpost & E1 & E2 & L).
    exists (FCons i t0 k0 pre), w, post, (v :: vpre), vpost. simpl. subst. auto.
Qed.

Lemma field_of_none id F : field_of F id = None -> ~ In id (f_ids F).
Proof.
  induction F as [|i t0 k0 F IH]; simpl; auto. destruct (String.eqb_spec i id); [discriminate|].
  intros H [|]; auto. apply IH; auto.
Qed.

Lemma steady_view c F V ids : wf F = true -> typed F = true -> has_fields F V ->
  reads_assignable F ids = true -> same_view (mk_env F V) (mk_env F (emitted c F V)) ids.
Proof.
  intros Hw Ht Hv. unfold same_view. induction ids as [|id ids IH]; simpl; auto. intros H.
  apply andb_true_iff in H. destruct H as [H1 H2]. rewrite IH by auto.
  assert (lookup (mk_env F V) id = lookup (mk_env F (emitted c F V)) id) as ->; auto.
  destruct (field_of F id) as [[t k]|] eqn:Ef.
  - destruct (field_of_at id F V t k Ef Hv) as (pre & v & Hat).
    rewrite (lookup_at _ _ _ _ _ _ _ (proj1 (wf_fields_ids _ _ Hw)) Hat).
    rewrite (lookup_emitted c _ _ _ _ _ _ _ Hw Hat).
    apply andb_true_iff in H1. destruct H1 as [H1 H3]. apply negb_true_iff in H1.
    rewrite (not_overwritten c _ _ _ _ _ _ _ Hw Ht Hv Hat H1).
    destruct (atomic_emit c) as (Ha & _). rewrite Ha; auto.
  - apply field_of_none in Ef. rewrite !lookup_notin; auto.
Qed.

Lemma steady_sync c :
  (forall t F V v G seen, wf F = true -> typed F = true -> has_fields F V -> 
     typed_ty G t = true -> wf_ty seen t = true -> has_ty t v ->
     steady_ty F t = true -> free_ty t = true ->
     sync_ty c (mk_env F V) (mk_env F (emitted c F V)) t v) /\
  (forall gs F V ws G seen, wf F = true -> typed F = true -> has_fields F V -> 
     typed_fields G gs = true -> wf_fields seen gs = true -> has_fields gs ws ->
     steady_in F gs = true -> free_fields gs = true ->
     sync_in c (mk_env F V) (mk_env F (emitted c F V)) gs ws) /\
  (forall al F V i v G seen, wf F = true -> typed F = true -> has_fields F V -> 
     typed_alts G al = true -> wf_alts seen al = true -> has_alt al i v ->
     steady_alts F al = true -> free_alts al = true ->
     sync_alts c (mk_env F V) (mk_env F (emitted c F V)) al i v).
Proof.
  assert (Hl : forall F V l, wf F = true -> typed F = true -> has_fields F V ->
    len_steady F l = true -> len_sync (mk_env F V) (mk_env F (emitted c F V)) l).
  { intros F V [|f ids] Hw Ht Hv H; simpl in *; auto. apply steady_view; auto. }
  assert (Hk : forall t v k, (match k with CNone => true | _ => atomic t end) = true ->
     k = CNone \/ emit_ty c t v = v).
  { intros t v k H. destruct (atomic_emit c) as (Ha & _). destruct k; auto. }
  apply schema_mutind.
  - intros t n F V v G seen Hw Ht Hv T W HV S Fr. simpl. auto.
  - intros elt l b F V v G seen Hw Ht Hv T W HV S Fr. simpl in *. auto.
  - intros fs IH F V v G seen Hw Ht Hv T W HV S Fr. destruct v; simpl in HV; try tauto.
    cbn [sync_ty typed_ty wf_ty steady_ty free_ty] in *. eapply IH; eauto.
  - intros n fs IH F V v G seen Hw Ht Hv T W HV S Fr. destruct v; simpl in HV; try tauto.
    cbn [sync_ty typed_ty wf_ty steady_ty free_ty] in *. destruct HV as [_ HV].
    rewrite Forall_forall in *. intros x Hin. specialize (HV x Hin). destruct x; auto. eapply IH; eauto.
  - intros fs IH r l b F V v G seen Hw Ht Hv T W HV S Fr. destruct v; simpl in HV; try tauto.
    cbn [sync_ty typed_ty wf_ty steady_ty free_ty] in *.
    apply andb_true_iff in T. destruct T as [T _]. apply andb_true_iff in S. destruct S as [S1 S2].
    apply andb_true_iff in W. destruct W as [W _]. apply andb_true_iff in W. destruct W as [W _].
    split; auto.
    rewrite Forall_forall in *. intros x Hin. specialize (HV x Hin). destruct x; auto. eapply IH; eauto.
  - intros t IH p ids F V v G seen Hw Ht Hv T W HV S Fr.
    cbn [sync_ty typed_ty wf_ty steady_ty free_ty has_ty] in *.
    apply andb_true_iff in T. destruct T as [_ T]. apply andb_true_iff in W. destruct W as [_ W].
    apply andb_true_iff in S. destruct S as [S1 S2].
    destruct v; try tauto.
    + apply steady_view; auto.
    + split; [apply steady_view; auto|]. eapply IH; eauto.
  - intros g al IH F V v G seen Hw Ht Hv T W HV S Fr. destruct v; simpl in HV; try tauto.
    cbn [sync_ty typed_ty wf_ty steady_ty free_ty] in *.
    apply andb_true_iff in T. destruct T as [_ T]. apply andb_true_iff in W. destruct W as [_ W].
    apply andb_true_iff in S. destruct S as [S1 S2]. split; [|eapply IH; eauto].
    destruct g as [|f r ids cases|brs]; simpl in *; auto.
    + apply steady_view; auto.
    + apply Forall_forall. intros x Hin. apply steady_view; auto. rewrite forallb_forall in S1.
      apply (S1 x Hin).
  - intros. simpl. destruct ws; auto.
  - intros id t IHt k gs IHgs F V ws G seen Hw Ht Hv T W HV S Fr.
    destruct ws as [|w ws]; [simpl in HV; tauto|].
    cbn [sync_in typed_fields wf_fields steady_in free_fields has_fields] in *.
    apply andb_true_iff in T. destruct T as [T T3]. apply andb_true_iff in T. destruct T as [T1 T2].
    apply andb_true_iff in W. destruct W as [W W3]. apply andb_true_iff in W. destruct W as [W1 W2].
    apply andb_true_iff in S. destruct S as [S1 S2].
    apply andb_true_iff in Fr. destruct Fr as [Fr F3]. apply andb_true_iff in Fr. destruct Fr as [F1 F2].
    destruct HV as [V1 V2]. split; [eapply IHt; eauto|]. split; auto. eapply IHgs; eauto.
  - intros. simpl. auto.
  - intros t IHt k al IHal F V i v G seen Hw Ht Hv T W HV S Fr.
    cbn [sync_alts typed_alts wf_alts steady_alts free_alts has_alt] in *.
    apply andb_true_iff in T. destruct T as [T T3]. apply andb_true_iff in T. destruct T as [T T2].
    apply andb_true_iff in T. destruct T as [T0 T1].
    apply andb_true_iff in W. destruct W as [W1 W2].
    apply andb_true_iff in S. destruct S as [S1 S2].
    apply andb_true_iff in Fr. destruct Fr as [Fr F3]. apply andb_true_iff in Fr. destruct Fr as [F1 F2].
    destruct i; [split; auto; eapply IHt; eauto|eapply IHal; eauto].
Qed.

Lemma steady_in_sync c fs vs : wf fs = true -> typed fs = true -> has_fields fs vs ->
  steady fs = true -> free_fields fs = true -> in_sync c fs vs.
Proof. intros. destruct (steady_sync c) as (_ & H' & _). eapply H'; eauto. Qed.

(** ** The emitted struct differs only where the user cannot assign *)

Lemma claims_sources c id fs : forall vs, memb id (sources fs) = false -> claims c id fs vs = [].
Proof.
  unfold memb. induction fs as [|i t k fs IH]; intros [|v vs] H; simpl in *; auto.
  rewrite existsb_app in H. apply orb_false_iff in H. destruct H as [H1 H2]. rewrite IH by auto.
  rewrite app_nil_r.
  destruct t as [|elt [j|] b| | |gs r [j|] b| |[j s cs| |] al]; simpl in *; destruct v; simpl; auto;
    rewrite orb_false_r, String.eqb_sym in H1; rewrite H1; auto.
Qed.

Lemma sync_same c :
  (forall t E E' v, has_ty t v -> sync_ty c E E' t v -> same_assignable_ty t v (emit_ty c t v)) /\
  (forall gs F E E' ws V, has_fields gs ws -> sync_in c E E' gs ws ->
     same_assignable_in F gs ws (emit_fields c (fun id => hd_error (claims c id F V)) gs ws)) /\
  (forall al E E' i v, has_alt al i v -> sync_alts c E E' al i v ->
     same_assignable_alts al i v (emit_alts c al i v)).
Proof.
  apply schema_mutind.
  - intros t n E E' v Hv H. simpl. destruct v; auto.
  - intros elt l b E E' v Hv H. simpl. destruct v; auto.
  - intros fs IH E E' v Hv H. destruct v; simpl in Hv; try tauto. simpl. eapply IH; eauto.
  - intros n fs IH E E' v Hv H. destruct v; simpl in Hv; try tauto. simpl.
    cbn [sync_ty] in H. destruct Hv as [_ Hv]. clear n.
    induction l as [|x l IHl]; simpl; constructor.
    + inversion Hv; inversion H; subst. destruct x; auto. eapply IH; eauto.
    + inversion Hv; inversion H; subst. auto.
  - intros fs IH r n b E E' v Hv H. destruct v; simpl in Hv; try tauto. simpl.
    cbn [sync_ty] in H. destruct H as [_ H].
    induction l as [|x l IHl]; simpl; constructor.
    + inversion Hv; inversion H; subst. destruct x; auto. eapply IH; eauto.
    + inversion Hv; inversion H; subst. auto.
  - intros t IH p ids E E' v Hv H. destruct v; simpl in Hv; try tauto; simpl; auto.
    cbn [sync_ty] in H. destruct H. eapply IH; eauto.
  - intros g al IH E E' v Hv H. destruct v; simpl in Hv; try tauto; simpl.
    cbn [sync_ty] in H. destruct H. split; auto. eapply IH; eauto.
  - intros F E E' ws V Hv H. destruct ws; simpl in *; tauto.
  - intros id t IHt k gs IHgs F E E' ws V Hv H. destruct ws as [|w ws]; [simpl in Hv; tauto|].
    cbn [has_fields sync_in emit_fields same_assignable_in] in *.
    destruct Hv as [V1 V2]. destruct H as (H1 & H2 & H3). split; [|eapply IHgs; eauto].
    intros Ho.
    assert (slot (hd_error (claims c id F V)) k t (emit_ty c t w) = emit_ty c t w) as ->.
    { destruct t; auto. simpl in Ho. apply orb_false_iff in Ho. destruct Ho as [O1 O2].
      rewrite claims_sources by auto. simpl. destruct (pinned t k); [discriminate|]. destruct t; auto. }
    split; [eapply IHt; eauto|]. destruct H2; auto.
  - intros E E' i v Hv H. simpl in Hv. tauto.
  - intros t IHt k al IHal E E' i v Hv H. cbn [has_alt sync_alts emit_alts same_assignable_alts] in *.
    destruct i; [|eapply IHal; eauto]. destruct H as [H1 H2]. split; [eapply IHt; eauto|]. destruct H2; auto.
Qed.

Lemma emitted_same c fs vs : has_fields fs vs -> in_sync c fs vs ->
  same_assignable fs vs (emitted c fs vs).
Proof. intros Hv Hy. destruct (sync_same c) as (_ & H & _). eapply H; eauto. Qed.

Lemma round_trip_full c fs vs out rest : wf fs = true -> typed fs = true -> has_fields fs vs ->
  clean_fields c fs = true -> in_sync c fs vs -> sized_fields c fs (emitted c fs vs) ->
  wmem (stream_cast c fs vs) = (Ok tt, out) ->
  rmem (struct_cast c fs) (out ++ rest) = (Ok (emitted c fs vs), rest) /\
  same_assignable fs vs (emitted c fs vs).
Proof. intros. split; [eapply round_trip; eauto|apply emitted_same; auto]. Qed.

Lemma round_trip_steady c fs vs out rest : wf fs = true -> typed fs = true -> has_fields fs vs ->
  clean_fields c fs = true -> steady fs = true -> free_fields fs = true ->
  sized_fields c fs (emitted c fs vs) ->
  wmem (stream_cast c fs vs) = (Ok tt, out) ->
  rmem (struct_cast c fs) (out ++ rest) = (Ok (emitted c fs vs), rest) /\
  same_assignable fs vs (emitted c fs vs).
Proof. intros. eapply round_trip_full; eauto. apply steady_in_sync; auto. Qed.

(** ** Exactly *)

Lemma has_bytes o :
  (forall t v, has_ty t v -> Forall byte_ok (enc_ty o t v)) /\
  (forall fs vs, has_fields fs vs -> Forall byte_ok (enc_fields o fs vs)) /\
  (forall al i v, has_alt al i v -> Forall byte_ok (enc_alts o al i v)).
Proof.
  apply schema_mutind.
  - intros t n v H. simpl. apply Forall_firstn, enc_ct_bytes; auto.
  - intros elt l b [] H; try contradiction. simpl. apply flat_map_bytes.
    eapply Forall_impl; [|exact H]. intros; apply enc_ct_bytes; auto.
  - intros fs IH [] H; try contradiction. simpl. auto.
  - intros n fs IH [] H; try contradiction. destruct H as [_ H]. simpl. apply flat_map_bytes.
    eapply Forall_impl; [|exact H]. intros [] Hx; try contradiction. auto.
  - intros fs IH recsz l b [] H; try contradiction. simpl. apply flat_map_bytes.
    eapply Forall_impl; [|exact H]. intros [] Hx; try contradiction. auto.
  - intros b IH p ids [] H; try contradiction; simpl; auto.
  - intros g al IH [] H; try contradiction. simpl. auto.
  - intros [|v vs]; simpl; [auto|tauto].
  - intros id t IHt k fs IHfs [|v vs]; simpl; [tauto|]. intros (H1 & H2). apply Forall_app; auto.
  - intros i v [].
  - intros t IHt k al IHal [|i] v; simpl; auto.
Qed.

Lemma round_trip_exact c fs vs out rest : wf fs = true -> typed fs = true -> has_fields fs vs ->
  Forall byte_ok rest -> wmem (stream_cast c fs vs) = (Ok tt, out) ->
  (rmem (struct_cast c fs) (out ++ rest) = (Ok (emitted c fs vs), rest) <->
   valid c fs (emitted c fs vs)).
Proof.
  intros Hw Ht Hv Hr Hok. pose proof (write_encodes c fs vs out Hw Ht Hv Hok) as ->. split; intros H.
  - apply (read_sound c fs _ _ rest Hw) in H; [tauto|]. apply Forall_app. split; auto.
    apply has_bytes, emitted_has; auto.
  - apply read_complete; auto.
Qed.
