(** More facts about comparing casts. *)
From Coq Require Import ZifyBool ZifyNat.
From Verif Require Import Read Write Spec RExact WSpec Typing MoreSpec PropDefs Laws Streams BytesFacts
  ProgFacts ReadFacts ReadMore Safety ReadLemmas LayoutFacts WriteFacts WriteMain WriteLoc WriteErr
  WriteRel ReadFinal WriteFinal RExactFacts TotalFacts StreamFacts RTrip2 Rewrite SeqFacts LawFacts.

(** ** Byte order *)

Lemma read_trichotomy c fs bs : wf fs = true -> typed fs = true -> Forall byte_ok bs ->
  (exists vs rest, rmem (struct_cast c fs) bs = (Ok vs, rest)) \/
  (exists r id, fst (rmem (struct_cast c fs) bs) = Err (r, id)) \/
  fst (rmem (struct_cast c fs) bs) = UB.
Proof.
  intros Hw Ht Hb.
  pose proof (rsafe_mem True _ _ (struct_cast_safe c True fs Hw Ht (or_intror I))) as Hs.
  destruct (Hs ltac:(eapply rall_impl; [| | | |apply (struct_cast_all c fs Hw)]; auto) bs Hb)
    as (S1 & _ & _).
  pose proof (rmem_no_throw (struct_cast c fs) bs) as S2.
  destruct (rmem (struct_cast c fs) bs) as [[vs|[r id]| | |] rest]; simpl in *; eauto; try tauto; try congruence.
Qed.

Lemma bytewise_read c c' fs bs : c_szw c = c_szw c' -> c_dmax c = c_dmax c' ->
  bytewise_fields fs = true -> wf fs = true -> typed fs = true -> Forall byte_ok bs ->
  fst (rmem (struct_cast c fs) bs) = fst (rmem (struct_cast c' fs) bs) /\
  (forall vs rest, rmem (struct_cast c fs) bs = (Ok vs, rest) -> rmem (struct_cast c' fs) bs = (Ok vs, rest)).
Proof.
  intros H1 H2 B Hw Ht Hb. split; [|intros; eapply bytewise_ok; eauto].
  destruct (read_trichotomy c fs bs Hw Ht Hb) as [(vs & rest & H)|[(r & id & H)|H]].
  - rewrite H, (bytewise_ok c c' H1 H2 fs bs vs rest); auto.
  - rewrite H. symmetry. apply (bytewise_err c c' H1 H2); auto.
  - destruct (read_trichotomy c' fs bs Hw Ht Hb) as [(vs & rest & H')|[(r & id & H')|H']].
    + rewrite (bytewise_ok c' c (eq_sym H1) (eq_sym H2) fs bs vs rest) in H; auto. discriminate.
    + rewrite (bytewise_err c' c (eq_sym H1) (eq_sym H2) fs bs r id) in H; auto. discriminate.
    + congruence.
Qed.

Section BytewiseWrite.
Variables (c : cfg) (o : endian) (m : Z).
Let d := mkCfg (c_host c) o (c_cx c) (c_szw c) m.

Lemma bw_const t n v : one_byte t = true -> ct_wf t = true ->
  match t with TScalar _ | TFloat _ => (n <= csize t)%nat | _ => n = csize t end -> ct_ok t v ->
  wmem (write_const c t n v) = wmem (write_const d t n v).
Proof.
  intros Ho Hw Hn Hv. rewrite !write_const_ok by auto. cbn [d c_wire].
  rewrite (one_byte_enc (c_wire c) o); auto.
Qed.

Lemma bw_var t l : one_byte t = true -> ct_wf t = true -> Forall (ct_ok t) l ->
  wmem (write_var c t l) = wmem (write_var d t l).
Proof.
  intros Ho Hw Hv. rewrite !write_var_ok by auto. cbn [d c_wire]. f_equal.
  apply flat_map_ext. intros a. apply one_byte_enc; auto.
Qed.

Lemma bw_verify fs vs id t n v : one_byte t = true -> ct_wf t = true ->
  match t with TScalar _ | TFloat _ => (n <= csize t)%nat | _ => n = csize t end -> ct_ok t v ->
  wmem (verify_then_write c fs vs id t n v) = wmem (verify_then_write d fs vs id t n v).
Proof.
  intros. unfold verify_then_write. destruct (has_cond_obligation fs id); [|apply bw_const; auto].
  destruct v; auto. change (to_size d) with (to_size c).
  destruct (verify_cond _ _ _ _ _) as [[|]|]; auto. apply bw_const; auto.
Qed.

Lemma bytewise_write :
  (forall t fs vs id mem k v G seen, bytewise t = true -> wf_ty seen t = true -> typed_ty G t = true ->
     constr_ok t k = true -> has_ty t v ->
     wmem (write_ty c fs vs id mem k t v) = wmem (write_ty d fs vs id mem k t v)) /\
  (forall gs fs vs ws G seen, bytewise_fields gs = true -> wf_fields seen gs = true ->
     typed_fields G gs = true -> has_fields gs ws ->
     wmem (write_fields c fs vs gs ws) = wmem (write_fields d fs vs gs ws)) /\
  (forall al fs vs id i v G seen, bytewise_alts al = true -> wf_alts seen al = true ->
     typed_alts G al = true -> has_alt al i v ->
     wmem (write_alts c fs vs id al i v) = wmem (write_alts d fs vs id al i v)).
Proof.
  apply schema_mutind.
  - intros t n fs vs id mem k v G seen B Hw Ht Hk Hv. cbn [write_ty wf_ty has_ty bytewise] in *.
    apply andb_true_iff in Hw. destruct Hw as [W1 W2].
    assert (W3 : match t with TScalar _ | TFloat _ => (n <= csize t)%nat | _ => n = csize t end) by (destruct t; lia).
    unfold write_fixed. destruct (is_derived fs id).
    + rewrite (derive_value_same c d eq_refl). unfold derive_value. destruct t; auto.
      destruct (derive_fold _ _ _ _ _) as [dd|]; auto. destruct (negb (d_agreed dd)); auto.
      destruct (negb _); auto. apply bind_same; auto. intros _.
      apply bw_verify; auto. simpl. apply conv_in.
    + destruct mem; cbn [andb]; [|apply bw_verify; auto].
      unfold is_frozen. rewrite frozen_pinned. destruct (pinned t k) as [w|] eqn:Ep.
      * apply bw_verify; auto. eapply pinned_ok; eauto.
      * apply bw_verify; auto.
  - intros elt l b fs vs id mem k v G seen B Hw Ht Hk Hv. cbn [write_ty wf_ty has_ty bytewise] in *.
    apply andb_true_iff in Hw. destruct Hw as [W1 W2]. destruct v; auto. apply bind_same.
    + unfold verify_len. destruct l; auto.
    + intros _. apply bw_var; auto.
  - intros gs IH fs vs id mem k v G seen B Hw Ht Hk Hv. cbn [write_ty wf_ty typed_ty has_ty bytewise] in *.
    destruct v; auto. apply maperr_same. eapply IH; eauto.
  - intros n gs IH fs vs id mem k v G seen B Hw Ht Hk Hv. cbn [write_ty wf_ty typed_ty has_ty bytewise] in *.
    destruct v; auto. destruct (Nat.eqb _ _); auto. destruct Hv as [_ Hv]. apply wfor_same.
    eapply Forall_impl; [|exact Hv]. intros [] Hx; try tauto. apply maperr_same. eapply IH; eauto.
  - intros gs IH recsz l b fs vs id mem k v G seen B Hw Ht Hk Hv. cbn [write_ty wf_ty typed_ty has_ty bytewise] in *.
    rewrite !andb_true_iff in *; repeat match goal with H : _ /\ _ |- _ => destruct H end. destruct v; auto.
    apply bind_same; [unfold verify_len; destruct l; auto|].
    intros _. apply wfor_same. eapply Forall_impl; [|exact Hv]. intros [] Hx; try tauto.
    apply maperr_same. eapply IH; eauto; tauto.
  - intros b IH p ids fs vs id mem k v G seen B Hw Ht Hk Hv. cbn [write_ty wf_ty typed_ty has_ty bytewise] in *.
    rewrite !andb_true_iff in *; repeat match goal with H : _ /\ _ |- _ => destruct H end. destruct (lookups _ ids) as [args|]; auto.
    destruct (p args), v; auto. eapply IH; eauto; try tauto.
  - intros g al IH fs vs id mem k v G seen B Hw Ht Hk Hv. cbn [write_ty wf_ty typed_ty has_ty bytewise] in *.
    rewrite !andb_true_iff in *; repeat match goal with H : _ /\ _ |- _ => destruct H end. destruct v; auto.
    assert (Ha : wmem (write_alts c fs vs id al i v) = wmem (write_alts d fs vs id al i v))
      by (eapply IH; eauto; tauto).
    destruct g; auto; destruct (deduce_type _ _) as [[j|]|]; auto; destruct (Nat.eqb j i); auto.
  - intros fs vs [|]; auto.
  - intros id t IHt k gs IHgs fs vs [|w ws] G seen B Hw Ht Hv;
      cbn [write_fields wf_fields typed_fields has_fields bytewise_fields] in *; auto.
    rewrite !andb_true_iff in *; repeat match goal with H : _ /\ _ |- _ => destruct H end. apply bind_same.
    + apply maperr_same. apply bind_same; auto. intros _. eapply IHt; eauto; tauto.
    + intros _. eapply IHgs; eauto; try tauto.
  - auto.
  - intros t IHt k al IHal fs vs id i v G seen B Hw Ht Hv. cbn [write_alts wf_alts typed_alts has_alt bytewise_alts] in *.
    rewrite !andb_true_iff in *; repeat match goal with H : _ /\ _ |- _ => destruct H end. destruct i.
    + apply bind_same; auto. intros _. eapply IHt; eauto; tauto.
    + eapply IHal; eauto; tauto.
Qed.
End BytewiseWrite.

Lemma bytewise_write_cast c c' fs vs : c_szw c = c_szw c' -> bytewise_fields fs = true ->
  wf fs = true -> typed fs = true -> has_fields fs vs ->
  wmem (stream_cast c fs vs) = wmem (stream_cast c' fs vs).
Proof.
  intros H B Hw Ht Hv.
  transitivity (wmem (stream_cast (mkCfg (c_host c) (c_wire c') (c_cx c) (c_szw c) (c_dmax c')) fs vs)).
  - eapply bytewise_write; eauto.
  - apply stream_cast_same; auto. unfold same_build. auto.
Qed.

(** ** Shapes *)

Lemma shape_read c fs bs bs' vs ws rest rest' : wf fs = true ->
  Forall byte_ok bs -> Forall byte_ok bs' ->
  rmem (struct_cast c fs) bs = (Ok vs, rest) -> rmem (struct_cast c fs) bs' = (Ok ws, rest') ->
  Forall2 same_shape vs ws ->
  (length bs - length rest = length bs' - length rest')%nat.
Proof.
  intros Hw Hb Hb' R R' Hs. apply read_ok_iff in R as [V ->]; auto. apply read_ok_iff in R' as [V' ->]; auto.
  rewrite !app_length.
  assert (length (enc_fields (c_wire c) fs vs) = length (enc_fields (c_wire c) fs ws)); [|lia].
  apply (proj1 (proj2 (shape_size (c_wire c)))); auto; eapply (proj1 (proj2 valid_has)); eauto.
Qed.

(** ** Fields nothing refers to *)

Lemma all_in_mono ids seen seen' : incl ids seen' -> all_in ids seen = true -> all_in ids seen' = true.
Proof.
  intros H _. unfold all_in. apply forallb_forall. intros x Hx. apply memb_In. auto.
Qed.

Lemma wf_refs :
  (forall t seen seen', wf_ty seen t = true -> incl (refs t) seen' -> wf_ty seen' t = true) /\
  (forall fs : fields, True) /\
  (forall al seen seen', wf_alts seen al = true -> incl (refs_alts al) seen' -> wf_alts seen' al = true).
Proof.
  assert (HL : forall l seen seen', len_wf seen l = true -> incl (len_refs l) seen' -> len_wf seen' l = true).
  { intros [id|f ids] seen seen' H Hi; cbn in *.
    - apply memb_In. apply Hi. left. auto.
    - eapply all_in_mono; eauto. }
  apply schema_mutind; cbn [wf_ty wf_alts refs refs_alts]; auto.
  - intros elt l b seen seen' H Hi. apply andb_prop in H as [H1 H2]. rewrite H1. eauto.
  - intros fs _ sz l b seen seen' H Hi. apply andb_prop in H as [H1 H2]. rewrite H1. eauto.
  - intros b IH p ids seen seen' H Hi. apply andb_prop in H as [H1 H2]. apply andb_true_intro. split.
    + eapply all_in_mono; eauto. intros x Hx. apply Hi, in_or_app. auto.
    + eapply IH; eauto. intros x Hx. apply Hi, in_or_app. auto.
  - intros g al IH seen seen' H Hi. apply andb_prop in H as [H1 H2]. apply andb_true_intro. split.
    + assert (Hg : incl (guide_refs g) seen') by (intros x Hx; apply Hi, in_or_app; auto).
      destruct g; cbn in *.
      * apply memb_In. apply Hg. left. auto.
      * eapply all_in_mono; eauto.
      * apply forallb_forall. intros br Hb. eapply forallb_forall in H1; eauto.
        eapply all_in_mono; eauto. intros x Hx. apply Hg. apply in_flat_map. eauto.
    + eapply IH; eauto. intros x Hx. apply Hi, in_or_app. auto.
  - intros t IHt k al IHa seen seen' H Hi. apply andb_prop in H as [H1 H2]. apply andb_true_intro. split.
    + eapply IHt; eauto. intros x Hx. apply Hi, in_or_app. auto.
    + eapply IHa; eauto. intros x Hx. apply Hi, in_or_app. auto.
Qed.

Lemma refs_seen :
  (forall t seen, wf_ty seen t = true -> incl (refs t) seen) /\
  (forall fs : fields, True) /\
  (forall al seen, wf_alts seen al = true -> incl (refs_alts al) seen).
Proof.
  assert (HA : forall ids seen, all_in ids seen = true -> incl ids seen).
  { intros ids seen H x Hx. apply memb_In. unfold all_in in H. eapply forallb_forall in H; eauto. }
  assert (HL : forall l seen, len_wf seen l = true -> incl (len_refs l) seen).
  { intros [id|f ids] seen H; cbn in *; auto. intros x [<-|[]]. apply memb_In. auto. }
  apply schema_mutind; cbn [wf_ty wf_alts refs refs_alts]; auto using incl_nil_l.
  - intros elt l b seen H. apply andb_prop in H as [H1 H2]. auto.
  - intros fs _ sz l b seen H. apply andb_prop in H as [H1 H2]. auto.
  - intros b IH p ids seen H. apply andb_prop in H as [H1 H2]. apply incl_app; auto.
  - intros g al IH seen H. apply andb_prop in H as [H1 H2]. apply incl_app; auto.
    destruct g; cbn in *; auto.
    + intros x [<-|[]]. apply memb_In. auto.
    + intros x Hx. apply in_flat_map in Hx as (br & Hb & Hx). eapply forallb_forall in H1; eauto.
      eapply HA; eauto.
  - intros t IHt k al IHa seen H. apply andb_prop in H as [H1 H2]. apply incl_app; auto.
Qed.

Lemma valid_ty_refs c seen E E' t v : wf_ty seen t = true ->
  (forall i, In i (refs t) -> lookup E i = lookup E' i) -> valid_ty c E t v -> valid_ty c E' t v.
Proof.
  intros Hw Ha. refine (proj1 (valid_ty_agree c (refs t) E E' t v _ _)).
  - eapply wf_refs; eauto. apply incl_refl.
  - intros i Hi. apply Ha. apply memb_In. auto.
Qed.

Lemma valid_fields_refs c E E' fs : forall seen vs, wf_fields seen fs = true ->
  (forall i, In i (refs_fields fs) -> lookup E i = lookup E' i) ->
  valid_fields c E fs vs -> valid_fields c E' fs vs.
Proof.
  induction fs as [|id t k fs IH]; intros seen [|v vs] Hw Ha; cbn; try tauto.
  cbn in Hw, Ha. apply andb_prop in Hw as [Hw W3]. apply andb_prop in Hw as [W1 W2].
  intros (H1 & H2 & H3). split; [|split]; auto.
  - apply (valid_ty_refs c seen E E'); auto. intros i Hi. apply Ha, in_or_app. auto.
  - eapply IH; eauto. intros i Hi. apply Ha, in_or_app. auto.
Qed.

Lemma mk_env_slot pre : forall vpre id t k post (v v' : val) vpost i, length vpre = f_len pre -> i <> id ->
  lookup (mk_env (f_app pre (FCons id t k post)) (vpre ++ v :: vpost)) i =
  lookup (mk_env (f_app pre (FCons id t k post)) (vpre ++ v' :: vpost)) i.
Proof.
  induction pre as [|j u l pre IH]; intros [|w vpre] id t k post v v' vpost i Hl Hi; simpl in *; try discriminate.
  - destruct (String.eqb_spec id i); [congruence|auto].
  - destruct (String.eqb j i); auto.
Qed.

Lemma valid_split c E pre gs : forall vs ws, length vs = f_len pre ->
  (valid_fields c E (f_app pre gs) (vs ++ ws) <-> valid_fields c E pre vs /\ valid_fields c E gs ws).
Proof.
  induction pre; intros [|v vs] ws Hl; simpl in *; try discriminate; [tauto|].
  rewrite IHpre by lia. tauto.
Qed.

Lemma enc_split o pre gs : forall vs ws, length vs = f_len pre ->
  enc_fields o (f_app pre gs) (vs ++ ws) = enc_fields o pre vs ++ enc_fields o gs ws.
Proof.
  induction pre; intros [|v vs] ws Hl; simpl in *; try discriminate; auto.
  rewrite IHpre by lia. apply app_assoc.
Qed.

Lemma f_app_nil fs : f_app fs FNil = fs.
Proof. induction fs; simpl; congruence. Qed.

Lemma refs_before pre gs id : forall seen, wf_fields seen (f_app pre gs) = true -> ~ In id seen ->
  ~ In id (f_ids pre) -> ~ In id (refs_fields pre).
Proof.
  induction pre as [|j t k pre IH]; intros seen Hw Hn Hi; cbn; auto.
  cbn in Hw, Hi. apply andb_prop in Hw as [Hw W3]. apply andb_prop in Hw as [W1 W2].
  intros H. apply in_app_or in H as [H|H].
  - apply Hn. eapply (proj1 refs_seen); eauto.
  - eapply IH; eauto. simpl. tauto.
Qed.

Lemma unreferenced c pre id t k post vpre v v' vpost rest :
  let fs := f_app pre (FCons id t k post) in
  wf fs = true -> length vpre = f_len pre -> ~ In id (refs_fields post) ->
  valid c fs (vpre ++ v :: vpost) ->
  valid_ty c (mk_env pre vpre) t v' -> holds k v' ->
  rmem (struct_cast c fs)
       (enc_fields (c_wire c) pre vpre ++ enc_ty (c_wire c) t v' ++ enc_fields (c_wire c) post vpost ++ rest) =
    (Ok (vpre ++ v' :: vpost), rest).
Proof.
  intros fs Hw Hl Hr Hv Ht Hk.
  assert (V : valid c fs (vpre ++ v' :: vpost)).
  { unfold valid in *. set (E := mk_env fs (vpre ++ v :: vpost)) in *.
    set (E' := mk_env fs (vpre ++ v' :: vpost)).
    assert (HE : forall i, i <> id -> lookup E i = lookup E' i)
      by (intros; apply mk_env_slot; auto).
    pose proof (wf_fields_ids _ _ Hw) as [Hnd _]. unfold fs in Hnd. rewrite f_ids_app in Hnd. cbn in Hnd.
    apply NoDup_remove in Hnd as [_ Hnd].
    pose proof (wf_fields_app _ _ _ Hw) as [W1 W2]. cbn in W2.
    apply andb_prop in W2 as [W2 W4]. apply andb_prop in W2 as [W2 W3].
    apply valid_split in Hv as [Hv1 Hv2]; auto. cbn in Hv2. destruct Hv2 as (Hv2 & Hv3 & Hv4).
    apply valid_split; auto. split; [|cbn; split; [|split]; auto].
    - apply (valid_fields_refs c E E' pre [] vpre W1); auto. intros i Hi. apply HE. intros ->.
      eapply (refs_before pre FNil id []); eauto.
      + rewrite f_app_nil. auto.
      + intros H. apply Hnd, in_or_app. auto.
    - apply (valid_ty_refs c _ (mk_env pre vpre) E' t v' W3); auto. intros i Hi. symmetry. apply lookup_mk_env_app; auto.
      pose proof (proj1 refs_seen _ _ W3 _ Hi) as H. rewrite app_nil_r in H. apply in_rev in H. auto.
    - apply (valid_fields_refs c E E' post _ vpost W4); auto. intros i Hi. apply HE. intros ->. contradiction. }
  pose proof (read_complete c fs _ rest Hw V) as R. unfold fs in R at 2. rewrite enc_split in R by auto.
  cbn [enc_fields] in R. rewrite <- !app_assoc in R. exact R.
Qed.

(** ** Enough bytes *)

Lemma rrun_short {E A} (PE PF : E -> Prop) PA (S : istream) good view lim alloc (p : rprog E A) :
  conforms S good view lim -> rall PE PF (fun n => 0 <= n <= lim) PA p ->
  forall s o s' ev n, good s -> rrun S alloc p s = (o, s', ev) -> In (EvRead n None) ev ->
  Z.of_nat (length (view s)) < requested ev.
Proof.
  intros Hc. induction p; simpl; intros Hall s o s' ev m Hg Hr Hin;
    try (inversion Hr; subst; destruct Hin; fail).
  - destruct Hall as (HR & HF & Hall).
    specialize (Hc s n Hg HR). destruct (Z.leb_spec n (Z.of_nat (length (view s)))).
    + destruct Hc as (s1 & Hi & Hg1 & Hv). rewrite Hi in Hr.
      destruct (rrun S alloc (k _) s1) as [[o1 s2] ev1] eqn:Er.
      inversion Hr; subst. destruct Hin as [Hin|Hin]; [discriminate|].
      pose proof (H _ (Hall _) _ _ _ _ _ Hg1 Er Hin) as X. rewrite Hv, skipn_length in X.
      cbn [requested]. lia.
    + destruct Hc as (s1 & Hi). rewrite Hi in Hr. inversion Hr; subst. cbn [requested]. lia.
  - destruct Hall as [HA Hall]. destruct (alloc n).
    + destruct (rrun S alloc p s) as [[o1 s2] ev1] eqn:Er.
      inversion Hr; subst. destruct Hin as [Hin|Hin]; [discriminate|]. cbn [requested]. eauto.
    + inversion Hr; subst. destruct Hin as [Hin|[]]. discriminate.
Qed.

Definition memory : istream :=
  mkI (list Z) (fun s n =>
    if n <=? Z.of_nat (length s) then (Some (firstn (Z.to_nat n) s), skipn (Z.to_nat n) s) else (None, s)).

Lemma memory_conforms lim : conforms memory (fun _ => True) (fun s => s) lim.
Proof.
  intros s n _ _. simpl. destruct (n <=? Z.of_nat (length s)); eauto.
Qed.

Lemma enough_stream c S good view lim alloc fs s r id s' ev : wf fs = true -> conforms S good view lim ->
  widest_fields c fs <= lim -> good s ->
  total_fields c (own_bytes c) fs <= Z.of_nat (length (view s)) ->
  rrun S alloc (struct_cast c fs) s = (Err (r, id), s', ev) -> r <> BufferExhaustion.
Proof.
  intros Hw Hc Hl Hg Ht R ->. destruct (reader_requests c lim) as (_ & Hf & _).
  apply (read_vocabulary c fs S alloc s BufferExhaustion id s' ev Hw) in R as X.
  destruct X as (_ & _ & [X _]). destruct (X eq_refl) as (n & Hn).
  pose proof (bytes_bound _ _ _ _ _ _ _ _ Hw R).
  enough (Z.of_nat (length (view s)) < requested ev) by lia.
  eapply rrun_short; eauto.
Qed.

Lemma enough_bytes c fs bs : wf fs = true ->
  total_fields c (own_bytes c) fs <= Z.of_nat (length bs) ->
  forall id, fst (rmem (struct_cast c fs) bs) <> Err (BufferExhaustion, id).
Proof.
  intros Hw Ht id H.
  destruct (rrun_total memory (struct_cast c fs) bs) as (o & s' & ev & R & Ho).
  destruct (struct_cast_conforms c memory _ _ _ _ fs bs o s' ev Hw (memory_conforms (widest_fields c fs))
    (Z.le_refl _) I R Ho) as [H1 _].
  cbv beta in H1. rewrite H in H1. subst o.
  exact (enough_stream c memory _ _ _ _ fs bs _ id s' ev Hw (memory_conforms (widest_fields c fs))
    (Z.le_refl _) I Ht R eq_refl).
Qed.

Lemma rmem_final {E A} (PE PF : E -> Prop) PA (p : rprog E A) : rall PE PF (fun n => 0 <= n) PA p ->
  forall bs o rest, rmem p bs = (o, rest) ->
  (exists e, o = Err e /\ PF e) \/ forall x, rmem p (bs ++ x) = (o, rest ++ x).
Proof.
  induction p; simpl; intros Ha bs o rest R; try (inversion R; subst; auto; fail).
  - destruct Ha as (Hn & He & Ha). destruct (Z.leb_spec n (Z.of_nat (length bs))) as [Hb|Hb].
    + destruct (H _ (Ha _) _ _ _ R) as [X|X]; [left; auto|right]. intros x.
      rewrite app_length. destruct (Z.leb_spec n (Z.of_nat (length bs + length x))); [|lia].
      rewrite firstn_app, skipn_app.
      replace (Z.to_nat n - length bs)%nat with 0%nat by lia. simpl. rewrite app_nil_r. auto.
    + inversion R; subst. left. eauto.
  - destruct Ha as [_ Ha]. destruct (IHp Ha _ _ _ R); auto.
Qed.

Lemma read_final c fs bs : wf fs = true ->
  ((exists id, fst (rmem (struct_cast c fs) bs) = Err (BufferExhaustion, id)) <->
   exists x, Forall byte_ok x /\ fst (rmem (struct_cast c fs) (bs ++ x)) <> fst (rmem (struct_cast c fs) bs)).
Proof.
  intros Hw. split.
  - intros (id & H). exists (repeat 0 (Z.to_nat (total_fields c (own_bytes c) fs))). split.
    + apply Forall_forall. intros y Hy. apply repeat_spec in Hy. subst. unfold byte_ok. lia.
    + rewrite H. apply enough_bytes; auto. rewrite app_length, repeat_length. lia.
  - intros (x & _ & H). destruct (rmem (struct_cast c fs) bs) as [o rest] eqn:R.
    destruct (rmem_final _ _ _ _ (struct_cast_all c fs Hw) _ _ _ R) as [([r i] & -> & He)|X].
    + cbn in *. destruct He as [-> _]. eauto.
    + rewrite X in H. cbn in H. congruence.
Qed.

(** ** Streams that stay failed *)

Lemma sticky_run {E A} S failed alloc (p : rprog E A) : sticky_in S failed ->
  forall s o s' ev, failed s -> rrun S alloc p s = (o, s', ev) ->
  failed s' /\ forall n bs, ~ In (EvRead n (Some bs)) ev.
Proof.
  intros Hs. induction p; simpl; intros s o s' ev Hf R; try (inversion R; subst; split; auto; fail).
  - destruct (i_read S s n) as [r s1] eqn:Er. destruct (Hs _ _ _ _ Er) as [H1 H2].
    rewrite (H1 Hf) in *. inversion R; subst. split; auto. intros m bs [X|[]]. discriminate.
  - destruct (alloc n).
    + destruct (rrun S alloc p s) as [[o1 s1] ev1] eqn:Er. inversion R; subst.
      destruct (IHp _ _ _ _ Hf Er) as [X Y]. split; auto. intros m bs [Z|Z]; [discriminate|]. eapply Y; eauto.
    + inversion R; subst. split; auto. intros m bs [X|[]]. discriminate.
Qed.

Lemma sticky_refused {E A} S failed alloc (p : rprog E A) : sticky_in S failed ->
  forall s o s' ev n, rrun S alloc p s = (o, s', ev) -> In (EvRead n None) ev -> failed s'.
Proof.
  intros Hs. induction p; simpl; intros s o s' ev m R Hin; try (inversion R; subst; destruct Hin; fail).
  - destruct (i_read S s n) as [[bs|] s1] eqn:Er.
    + destruct (rrun S alloc (k bs) s1) as [[o1 s2] ev1] eqn:Er'. inversion R; subst.
      destruct Hin as [X|X]; [discriminate|]. eauto.
    + inversion R; subst. eapply Hs; eauto.
  - destruct (alloc n).
    + destruct (rrun S alloc p s) as [[o1 s1] ev1] eqn:Er. inversion R; subst.
      destruct Hin as [X|X]; [discriminate|]. eauto.
    + inversion R; subst. destruct Hin as [X|[]]. discriminate.
Qed.

Lemma exhausted_failed c fs S failed alloc s id s' ev : wf fs = true -> sticky_in S failed ->
  rrun S alloc (struct_cast c fs) s = (Err (BufferExhaustion, id), s', ev) -> failed s'.
Proof.
  intros Hw Hs R. destruct (read_vocabulary _ _ _ _ _ _ _ _ _ Hw R) as (_ & _ & [X _]).
  destruct (X eq_refl) as (n & Hn). eapply sticky_refused; eauto.
Qed.

Lemma failed_read c fs S failed alloc s o s' ev : wf fs = true -> sticky_in S failed -> failed s ->
  rrun S alloc (struct_cast c fs) s = (o, s', ev) ->
  failed s' /\ (forall n bs, ~ In (EvRead n (Some bs)) ev) /\
  ((exists id, o = Err (BufferExhaustion, id)) <-> exists n, In (EvRead n None) ev).
Proof.
  intros Hw Hs Hf R. destruct (sticky_run S failed alloc _ Hs _ _ _ _ Hf R) as [H1 H2].
  split; auto. split; auto. split.
  - intros (id & ->). destruct (read_vocabulary _ _ _ _ _ _ _ _ _ Hw R) as (_ & _ & [X _]). auto.
  - intros (n & Hn). destruct (rrun_refused _ _ _ _ _ _ _ _ R Hn) as ([r id] & ->).
    destruct (read_vocabulary _ _ _ _ _ _ _ _ _ Hw R) as (_ & _ & [_ X]). rewrite X by eauto. eauto.
Qed.

Lemma failed_first c S failed alloc id t n k fs s : wf (FCons id (FFixed t n) k fs) = true ->
  sticky_in S failed -> failed s ->
  fst (fst (rrun S alloc (struct_cast c (FCons id (FFixed t n) k fs)) s)) = Err (BufferExhaustion, id).
Proof.
  intros Hw Hs Hf. unfold wf in Hw. cbn in Hw. apply andb_prop in Hw as [Hw _].
  unfold struct_cast. cbn. unfold read_fixed.
  destruct (Nat.ltb_spec (csize t) n) as [Hl|_].
  - exfalso. apply andb_prop in Hw as [_ Hw]. destruct t; lia.
  - cbn. destruct (i_read S s (Z.of_nat n)) as [r s'] eqn:Er.
    destruct (Hs _ _ _ _ Er) as [H1 _]. rewrite H1; auto.
Qed.

Lemma sticky_wrun {E A} S failed (p : wprog E A) : sticky_out S failed ->
  forall s o s' ch, failed s -> wrun S p s = (o, s', ch) ->
  failed s' /\ forall bs, ~ In (bs, true) ch.
Proof.
  intros Hs. induction p; simpl; intros s o s' ch Hf R; try (inversion R; subst; split; auto; fail).
  destruct (o_write S s bs) as [r s1] eqn:Er. destruct (Hs _ _ _ _ Er) as [H1 H2].
  rewrite (H1 Hf) in *. inversion R; subst. split; auto. intros b [X|[]]. discriminate.
Qed.

Lemma sticky_wrefused {E A} S failed (p : wprog E A) : sticky_out S failed ->
  forall s o s' ch bs, wrun S p s = (o, s', ch) -> In (bs, false) ch -> failed s' /\ exists e, o = Err e.
Proof.
  intros Hs. induction p; simpl; intros s o s' ch b R Hin; try (inversion R; subst; destruct Hin; fail).
  destruct (o_write S s bs) as [[|] s1] eqn:Er.
  - destruct (wrun S p s1) as [[o1 s2] ch1] eqn:Er'. inversion R; subst.
    destruct Hin as [X|X]; [discriminate|]. eauto.
  - inversion R; subst. split; eauto. eapply Hs; eauto.
Qed.

Lemma refused_failed c fs vs S failed s id s' ch : sticky_out S failed ->
  wrun S (stream_cast c fs vs) s = (Err (BufferExhaustion, id), s', ch) -> failed s'.
Proof.
  intros Hs R. destruct (write_vocabulary _ _ _ _ _ _ _ _ _ R) as (_ & _ & [X _]).
  destruct (X eq_refl) as (n & Hn). eapply sticky_wrefused; eauto.
Qed.

Lemma failed_write c fs vs S failed s o s' ch : sticky_out S failed -> failed s ->
  wrun S (stream_cast c fs vs) s = (o, s', ch) ->
  failed s' /\ (forall bs, ~ In (bs, true) ch) /\
  ((exists id, o = Err (BufferExhaustion, id)) <-> exists bs, In (bs, false) ch).
Proof.
  intros Hs Hf R. destruct (sticky_wrun S failed _ Hs _ _ _ _ Hf R) as [H1 H2].
  split; auto. split; auto. split.
  - intros (id & ->). destruct (write_vocabulary _ _ _ _ _ _ _ _ _ R) as (_ & _ & [X _]). auto.
  - intros (n & Hn). destruct (sticky_wrefused _ _ _ Hs _ _ _ _ _ R Hn) as [_ ([r id] & ->)].
    destruct (write_vocabulary _ _ _ _ _ _ _ _ _ R) as (_ & _ & [_ X]). rewrite X by eauto. eauto.
Qed.

Lemma byte_stream_sticky szw junk : sticky_in (byte_stream szw junk) (fun s => b_ok s = false).
Proof.
  intros [buf pos ok] n r s' H. simpl in *. unfold bst_read in H. simpl in H.
  destruct (_ <? _); [inversion H; subst; auto|].
  destruct ok; inversion H; subst; simpl; split; auto; discriminate.
Qed.

Lemma byte_ostream_sticky : sticky_out byte_ostream (fun s => b_ok s = false).
Proof.
  intros [buf pos ok] bs r s' H. cbn in *. inversion H; subst. auto.
Qed.

Lemma memstream_sticky szw junk : sticky_in (memstream szw junk) (fun s => m_bad s = true).
Proof.
  intros [buf rd wr bad] n r s' H. simpl in *. unfold mst_read in H. simpl in H.
  destruct (mst_loop _ _ _ _ _) as [[bs|] rd']; [|inversion H; subst; auto].
  destruct bad; inversion H; subst; simpl; split; auto; discriminate.
Qed.

Lemma doc_memstream_sticky junk : sticky_in (doc_memstream junk) (fun s => d_ok s = false).
Proof.
  intros [buf rd ok] n r s' H. simpl in *. unfold dst_read in H. simpl in H.
  destruct (dst_loop _ _ _ _) as [[bs|] rd']; [|inversion H; subst; auto].
  destruct ok; inversion H; subst; simpl; split; auto; discriminate.
Qed.

Lemma mem_ostream_sticky : sticky_out mem_ostream (fun s => m_bad s = true).
Proof.
  intros [buf rd wr bad] bs r s' H. cbn in *. unfold mst_write in H. cbn in H.
  destruct (mst_store _ _ _) as [[|] [b w]]; inversion H; subst; cbn; auto.
  destruct bad; cbn; split; auto; discriminate.
Qed.

Lemma string_stream_sticky : sticky_in string_stream (fun s => ss_fail s = true).
Proof.
  intros [buf g p f] n r s' H. cbn in *. unfold sst_read in H. cbn in H.
  destruct f; [inversion H; subst; auto|]. destruct (_ <=? _); inversion H; subst; cbn; split; auto; discriminate.
Qed.

Lemma string_ostream_sticky : sticky_out string_ostream (fun s => ss_fail s = true).
Proof.
  intros [buf g p f] bs r s' H. cbn in *. unfold sst_write in H. cbn in H.
  destruct f; inversion H; subst; cbn; split; auto; discriminate.
Qed.

(** ** The standard string stream *)

Lemma string_stream_conforms lim :
  conforms string_stream (fun s => ss_fail s = false) (fun s => skipn (ss_get s) (ss_buf s)) lim.
Proof.
  intros [buf g p f] n Hf Hn. cbn in Hf. subst f. cbn [string_stream i_read]. unfold sst_read.
  cbn [ss_fail ss_get ss_buf]. destruct (n <=? _); eauto.
  eexists. split; [reflexivity|]. split; [reflexivity|]. cbn [ss_get ss_buf].
  rewrite skipn_plus. f_equal. lia.
Qed.

Lemma string_ostream_run {E A} (p : wprog E A) : forall buf g,
  exists ch, wrun string_ostream p (mkSst buf g (length buf) false) =
    (fst (wmem p), mkSst (buf ++ snd (wmem p)) g (length buf + length (snd (wmem p))) false, ch) /\
    concat (map fst ch) = snd (wmem p).
Proof.
  induction p; intros buf g; cbn [wrun wmem fst snd];
    try (exists []; rewrite app_nil_r, Nat.add_0_r; split; reflexivity).
  cbn [string_ostream o_write]. unfold sst_write. cbn [ss_fail ss_put ss_buf ss_get].
  rewrite firstn_all, (skipn_all2 buf) by lia. rewrite app_nil_r.
  destruct (IHp (buf ++ bs) g) as (ch & H1 & H2). destruct (wmem p) as [o out]. cbn [fst snd] in *.
  rewrite app_length in H1. fold string_ostream. rewrite H1. exists ((bs, true) :: ch).
  rewrite <- app_assoc, app_length, Nat.add_assoc. split; [reflexivity|]. simpl. rewrite H2. auto.
Qed.

Lemma string_channel c fs vs buf s ch alloc o s2 ev :
  wf fs = true -> typed fs = true -> has_fields fs vs -> clean_fields c fs = true ->
  in_sync c fs vs -> sized_fields c fs (emitted c fs vs) ->
  wrun string_ostream (stream_cast c fs vs) (mkSst buf (length buf) (length buf) false) = (Ok tt, s, ch) ->
  rrun string_stream alloc (struct_cast c fs) s = (o, s2, ev) -> o <> Throw ->
  o = Ok (emitted c fs vs) /\ ss_fail s2 = false /\ skipn (ss_get s2) (ss_buf s2) = [].
Proof.
  intros Hw Ht Hv Hc Hs Hz W R Hthrow.
  destruct (string_ostream_run (stream_cast c fs vs) buf (length buf)) as (ch' & W' & _).
  rewrite W in W'. destruct (wmem (stream_cast c fs vs)) as [o' out] eqn:Em. cbn [fst snd] in W'.
  inversion W'; subst.
  destruct (round_trip_full c fs vs out [] Hw Ht Hv Hc Hs Hz Em) as [RT _]. rewrite app_nil_r in RT.
  pose proof (fun G => struct_cast_conforms _ _ _ _ _ _ _ _ _ _ _ Hw
    (string_stream_conforms (widest_fields c fs)) (Z.le_refl _) G R Hthrow) as P.
  destruct (P eq_refl) as [H1 H2].
  cbn [ss_get ss_buf] in H1, H2.
  rewrite skipn_app, skipn_all, Nat.sub_diag in H1, H2. cbn [app skipn] in H1, H2.
  rewrite RT in H1, H2. cbn [fst snd] in *. subst o. destruct (H2 _ eq_refl). auto.
Qed.

(** ** Two writes *)

Lemma write_injective c fs vs ws out :
  wf fs = true -> typed fs = true -> clean_fields c fs = true ->
  has_fields fs vs -> in_sync c fs vs -> sized_fields c fs (emitted c fs vs) ->
  has_fields fs ws -> in_sync c fs ws -> sized_fields c fs (emitted c fs ws) ->
  wmem (stream_cast c fs vs) = (Ok tt, out) -> wmem (stream_cast c fs ws) = (Ok tt, out) ->
  emitted c fs vs = emitted c fs ws.
Proof.
  intros Hw Ht Hc V1 V2 V3 W1 W2 W3 E1 E2.
  destruct (round_trip_full c fs vs out [] Hw Ht V1 Hc V2 V3 E1) as [R1 _].
  destruct (round_trip_full c fs ws out [] Hw Ht W1 Hc W2 W3 E2) as [R2 _].
  rewrite R1 in R2. inversion R2. auto.
Qed.

Lemma write_normal c fs vs out :
  wf fs = true -> typed fs = true -> clean_fields c fs = true ->
  has_fields fs vs -> steady fs = true -> free_fields fs = true -> sized_fields c fs (emitted c fs vs) ->
  wmem (stream_cast c fs vs) = (Ok tt, out) ->
  stream_cast c fs (emitted c fs vs) = stream_cast c fs vs.
Proof.
  intros Hw Ht Hc V1 V2 V3 V4 E1.
  destruct (round_trip_steady c fs vs out [] Hw Ht V1 Hc V2 V3 V4 E1) as [_ R].
  symmetry. apply same_assignable_write; auto.
Qed.

(** ** What a laxer schema read, read strictly *)

Lemma laxer_converse c c' fs fs' bs vs rest : c_wire c = c_wire c' -> c_szw c = c_szw c' ->
  laxer_fields c c' fs fs' -> wf fs = true -> typed fs = true -> typed fs' = true ->
  plain_fields fs = true -> Forall byte_ok bs ->
  rmem (struct_cast c' fs') bs = (Ok vs, rest) ->
  rmem (struct_cast c fs) bs = (Ok vs, rest) \/
  exists r id, fst (rmem (struct_cast c fs) bs) = Err (r, id) /\ (r = ValidationFailure \/ r = ExcessiveLength).
Proof.
  intros H1 H2 L Hw Ht Ht' Hp Hb R.
  destruct (read_decided c fs bs Hw Ht Hp Hb) as [(ws & q & V)|(pre & id & t & k & post & ws & q & r & F)].
  - left. apply read_ok_iff in V; auto. rewrite V.
    pose proof (laxer_ok c c' H1 H2 fs fs' bs ws q L Hw Hb V) as X. congruence.
  - right. assert (X : fst (rmem (struct_cast c fs) bs) = Err (r, id)).
    { apply read_err_iff; auto. exists pre, t, k, post, ws, q. auto. }
    exists r, id. split; auto.
    destruct r; auto; exfalso;
      match goal with X : _ = Err (?r, _) |- _ =>
        assert (Y : fst (rmem (struct_cast c' fs') bs) = Err (r, id))
          by (eapply (laxer_err c c'); eauto; discriminate) end; rewrite R in Y; discriminate.
Qed.
