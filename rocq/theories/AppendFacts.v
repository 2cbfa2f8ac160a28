(** * Appending fields to a schema, when writing *)
From Coq Require Import ZifyBool ZifyNat.
From Verif Require Import Read Write WSpec Typing PropDefs MoreSpec BytesFacts ProgFacts ReadFacts ReadMore ReadLemmas Safety.
From Verif Require Import WriteFacts WriteMain WriteLoc WriteRel.

Lemma ident_is_source t id : ident_is (len_target t) id = true <-> In id (len_source t).
Proof.
  destruct t; simpl; try (split; [discriminate|tauto]);
    destruct l; simpl; try (split; [discriminate|tauto]);
    rewrite String.eqb_eq; intuition.
Qed.

Lemma not_source t id : ~ In id (len_source t) -> ident_is (len_target t) id = false.
Proof.
  intros H. destruct (ident_is _ _) eqn:E; auto. apply ident_is_source in E. tauto.
Qed.

Lemma alts_not_source al id : ~ In id (alts_len_sources al) -> alts_target al id = false.
Proof.
  induction al; simpl; auto. intros H. rewrite in_app_iff in H.
  rewrite not_source, IHal by tauto. auto.
Qed.

Lemma alts_nth_source al id : ~ In id (alts_len_sources al) -> forall i t k,
  a_nth i al = Some (t, k) -> ~ In id (len_source t).
Proof.
  induction al; intros H [|i] t' k' Hn; simpl in *; try discriminate; rewrite in_app_iff in H.
  - inversion Hn; subst. tauto.
  - eapply IHal; eauto.
Qed.

(** Fields that say nothing about [id]. *)
Definition silent_ty (id : ident) (t : fty) : Prop :=
  ident_is (len_target t) id = false /\ ident_is (disc_target t) id = false /\
  has_cond_obligation_of t id = false.

Lemma silent_head id i t k fs : ~ In id (all_sources (FCons i t k fs)) ->
  silent_ty id t /\ ~ In id (all_sources fs).
Proof.
  cbn [all_sources]. rewrite in_app_iff. intros H. split; [|tauto].
  unfold silent_ty, has_cond_obligation_of.
  assert (Hl : ident_is (len_target t) id = false).
  { destruct (ident_is (len_target t) id) eqn:E; auto. apply ident_is_source in E.
    destruct t; simpl in E; tauto. }
  split; [exact Hl|]. destruct t; simpl; auto.
  - split; auto. rewrite not_source by tauto. auto.
  - rewrite in_app_iff in H. rewrite alts_not_source by tauto.
    destruct g; simpl in *; auto. destruct (String.eqb_spec id0 id); auto. subst. tauto.
Qed.

Lemma derived_app fs gs id : ~ In id (all_sources gs) ->
  is_derived (f_app fs gs) id = is_derived fs id.
Proof.
  intros H. unfold is_derived.
  assert (Hg : is_length_derived gs id = false /\ is_disc_derived gs id = false).
  { induction gs; simpl; auto. apply silent_head in H. destruct H as [(S1 & S2 & _) H].
    destruct (IHgs H) as [-> ->]. rewrite S1, S2. auto. }
  destruct Hg as [G1 G2].
  assert (is_length_derived (f_app fs gs) id = is_length_derived fs id) as ->
    by (induction fs; simpl; auto; rewrite IHfs; auto).
  assert (is_disc_derived (f_app fs gs) id = is_disc_derived fs id) as ->; auto.
  clear G1. induction fs; simpl; auto; rewrite IHfs; auto.
Qed.

Lemma fold_silent c id gs : ~ In id (all_sources gs) -> forall ws d, length ws = f_len gs ->
  derive_fold c id gs ws d = Some d.
Proof.
  induction gs; intros H [|w ws] d L; simpl in L; try discriminate; auto.
  apply silent_head in H. destruct H as [(S1 & S2 & _) H]. cbn [derive_fold].
  unfold implied. rewrite S1, S2. auto.
Qed.

Lemma fold_app c id fs gs ws : ~ In id (all_sources gs) -> length ws = f_len gs ->
  forall vs d, length vs = f_len fs ->
  derive_fold c id (f_app fs gs) (vs ++ ws) d = derive_fold c id fs vs d.
Proof.
  intros H L. induction fs; intros [|v vs] d Lv; simpl in Lv; try discriminate.
  - simpl. apply fold_silent; auto.
  - cbn [f_app derive_fold app]. destruct (implied _ _ _ _) as [[z|]|]; auto.
Qed.

Lemma cond_app fs gs id : ~ In id (all_sources gs) ->
  has_cond_obligation (f_app fs gs) id = has_cond_obligation fs id.
Proof.
  intros H. assert (Hg : has_cond_obligation gs id = false).
  { induction gs; simpl; auto. apply silent_head in H. destruct H as [(_ & _ & S) H].
    rewrite S. auto. }
  induction fs; simpl; auto. rewrite IHfs. auto.
Qed.

Lemma verify_silent e id w gs : ~ In id (all_sources gs) -> forall ws, has_fields gs ws ->
  verify_cond e id w gs ws = Some true.
Proof.
  induction gs; intros H [|v ws] Hv; cbn [has_fields] in Hv; try tauto; auto.
  assert (Hs := H). apply silent_head in H. destruct H as [(_ & _ & S) H].
  cbn [verify_cond]. destruct Hv as [Hv Hw]. rewrite IHgs by auto.
  apply orb_false_iff in S. destruct S as [S1 S2]. unfold cond_agrees. rewrite S1.
  destruct t; auto. simpl in Hv. destruct v; try tauto.
  apply has_alt_nth in Hv. destruct Hv as (t & k & Hn & _). rewrite Hn.
  cbn [all_sources] in Hs. rewrite !in_app_iff in Hs.
  rewrite (not_source t id); auto. eapply alts_nth_source; eauto.
Qed.

Lemma verify_app e e' id w fs gs ws : ~ In id (all_sources gs) -> has_fields gs ws ->
  forall seen vs, length vs = f_len fs -> wf_fields seen fs = true ->
  (forall i, In i seen \/ In i (f_ids fs) -> lookup e i = lookup e' i) ->
  verify_cond e id w (f_app fs gs) (vs ++ ws) = verify_cond e' id w fs vs.
Proof.
  intros H Hw. induction fs as [|i t k fs IH]; intros seen [|v vs] L Hwf He; simpl in L; try discriminate.
  - simpl. apply verify_silent; auto.
  - cbn [f_app app verify_cond wf_fields] in *.
    apply andb_true_iff in Hwf. destruct Hwf as [Hwf W3].
    apply andb_true_iff in Hwf. destruct Hwf as [W1 W2].
    rewrite (IH (i :: seen) vs); auto.
    + assert (cond_agrees e id w t v = cond_agrees e' id w t v) as ->; auto.
      unfold cond_agrees. destruct (ident_is _ _); auto. destruct t; auto.
      destruct v; auto. cbn [wf_ty] in W2. apply andb_true_iff in W2. destruct W2 as [W2 _].
      assert (lookups e ids = lookups e' ids) as ->; auto.
      apply (agree_lookups seen); auto. intros j Hj. apply He. left. apply memb_In; auto.
    + intros j [[->|Hj]|Hj]; apply He; simpl; auto.
Qed.

(** ** The writer *)

Section Append.
Variables (c : cfg) (fs gs : fields) (vs ws : list val).
Hypothesis (Hwf : wf (f_app fs gs) = true) (Hl : length vs = f_len fs) (Hg : has_fields gs ws).
Hypothesis Hsil : forall id, In id (f_ids fs) -> ~ In id (all_sources gs).

Notation F := (f_app fs gs).
Notation V := (vs ++ ws).

Lemma ap_env id : In id (f_ids fs) -> lookup (mk_env F V) id = lookup (mk_env fs vs) id.
Proof. intros H. apply lookup_mk_env_app; auto. Qed.

Lemma ap_agree seen : (forall i, In i seen -> In i (f_ids fs)) ->
  agree seen (mk_env F V) (mk_env fs vs).
Proof. intros H i Hi. apply ap_env, H, memb_In, Hi. Qed.

Lemma ap_verify id w : In id (f_ids fs) ->
  verify_cond (mk_env F V) id w F V = verify_cond (mk_env fs vs) id w fs vs.
Proof.
  intros H. apply (verify_app _ _ _ _ _ _ _ (Hsil id H) Hg []); auto.
  - apply wf_app_l in Hwf. exact Hwf.
  - intros i [[]|Hi]. apply ap_env. auto.
Qed.

Lemma ap_then id t n v : In id (f_ids fs) ->
  verify_then_write c F V id t n v = verify_then_write c fs vs id t n v.
Proof.
  intros H. unfold verify_then_write. rewrite cond_app by auto.
  destruct (has_cond_obligation fs id); auto. destruct v; auto. rewrite ap_verify by auto. auto.
Qed.

Lemma ap_fixed id mem k t n v : In id (f_ids fs) ->
  write_fixed c F V id mem k t n v = write_fixed c fs vs id mem k t n v.
Proof.
  intros H. unfold write_fixed. rewrite derived_app by auto.
  assert (derive_value c F V id t n = derive_value c fs vs id t n) as ->.
  { unfold derive_value. destruct t; auto. rewrite fold_app; auto. apply has_fields_length; auto. }
  destruct (is_derived fs id).
  - destruct (derive_value _ _ _ _ _ _); auto. rewrite ap_then; auto.
  - rewrite ap_then by auto. destruct (mem && _); auto. destruct (frozen_value _ _); auto.
    apply ap_then; auto.
Qed.

Lemma ap_len seen l z : (forall i, In i seen -> In i (f_ids fs)) -> len_wf seen l = true ->
  verify_len c (mk_env F V) l z = verify_len c (mk_env fs vs) l z.
Proof.
  intros H Hw. destruct l; auto. unfold verify_len.
  rewrite (deduce_len_agree c seen (mk_env F V) (mk_env fs vs)); auto using ap_agree.
Qed.

Lemma ap_write :
  (forall t seen id mem k v, wf_ty seen t = true -> (forall i, In i seen -> In i (f_ids fs)) ->
     In id (f_ids fs) -> write_ty c F V id mem k t v = write_ty c fs vs id mem k t v) /\
  (forall hs : fields, True) /\
  (forall al seen id i v, wf_alts seen al = true -> (forall i, In i seen -> In i (f_ids fs)) ->
     In id (f_ids fs) -> write_alts c F V id al i v = write_alts c fs vs id al i v).
Proof.
  apply schema_mutind.
  - intros t n seen id mem k v Hw Hs Hi. cbn [write_ty]. apply ap_fixed; auto.
  - intros elt l b seen id mem k v Hw Hs Hi. cbn [write_ty wf_ty] in *.
    apply andb_true_iff in Hw. destruct Hw as [_ Hw]. destruct v; auto.
    rewrite (ap_len seen); auto.
  - intros; reflexivity.
  - intros; reflexivity.
  - intros hs _ recsz l b seen id mem k v Hw Hs Hi. cbn [write_ty wf_ty] in *.
    apply andb_true_iff in Hw. destruct Hw as [_ Hw]. destruct v; auto.
    rewrite (ap_len seen); auto.
  - intros b IH p ids seen id mem k v Hw Hs Hi. cbn [write_ty wf_ty] in *.
    apply andb_true_iff in Hw. destruct Hw as [W1 W2].
    rewrite (agree_lookups seen _ _ ids (ap_agree seen Hs) W1).
    destruct (lookups _ _); auto. destruct (p l), v; auto. eapply IH; eauto.
  - intros g al IH seen id mem k v Hw Hs Hi. cbn [write_ty wf_ty] in *.
    apply andb_true_iff in Hw. destruct Hw as [W1 W2]. destruct v; auto.
    rewrite (deduce_type_agree seen _ _ g (ap_agree seen Hs) W1).
    rewrite (IH seen id i v W2 Hs Hi). auto.
  - auto.
  - auto.
  - reflexivity.
  - intros t IHt k al IHal seen id i v Hw Hs Hi. cbn [write_alts wf_alts] in *.
    apply andb_true_iff in Hw. destruct Hw as [W1 W2]. destruct i.
    + rewrite (IHt seen id false k v); auto.
    + eapply IHal; eauto.
Qed.

Lemma ap_fields : forall hs seen us, wf_fields seen hs = true ->
  (forall i, In i seen \/ In i (f_ids hs) -> In i (f_ids fs)) ->
  write_fields c F V hs us = write_fields c fs vs hs us.
Proof.
  induction hs as [|id t k hs IH]; intros seen [|u us] Hw Hs; auto. cbn [write_fields wf_fields f_ids] in *.
  apply andb_true_iff in Hw. destruct Hw as [Hw W3]. apply andb_true_iff in Hw. destruct Hw as [W1 W2].
  assert (Hi : In id (f_ids fs)) by (apply Hs; simpl; auto).
  rewrite derived_app by auto. destruct ap_write as (Hty & _).
  rewrite (Hty t seen id true k u); auto.
  rewrite (IH (id :: seen)); auto.
  intros i [[->|H]|H]; apply Hs; simpl; auto.
Qed.

Lemma append_prog : stream_cast c F V =
  wbind (stream_cast c fs vs) (fun _ => write_fields c F V gs ws).
Proof.
  unfold stream_cast. rewrite write_fields_app by auto. f_equal. apply (ap_fields fs []).
  - apply wf_app_l in Hwf. exact Hwf.
  - intros i [[]|H]; auto.
Qed.

End Append.

Lemma append_write c S fs gs vs ws s o s1 ch1 : wf (f_app fs gs) = true ->
  length vs = f_len fs -> has_fields gs ws ->
  (forall id, In id (f_ids fs) -> ~ In id (all_sources gs)) ->
  wrun S (stream_cast c fs vs) s = (o, s1, ch1) ->
  match o with
  | Ok tt => exists o' s2 ch2,
      wrun S (stream_cast c (f_app fs gs) (vs ++ ws)) s = (o', s2, ch1 ++ ch2) /\
      (forall r id, o' = Err (r, id) -> In id (f_ids gs))
  | _ => wrun S (stream_cast c (f_app fs gs) (vs ++ ws)) s = (o, s1, ch1)
  end.
Proof.
  intros Hw Hl Hg Hs Hr. rewrite append_prog, wrun_bind, Hr by auto.
  destruct o as [[]|e| | |]; auto.
  destruct (wrun S (write_fields c (f_app fs gs) (vs ++ ws) gs ws) s1) as [[o' s2] ch2] eqn:E.
  exists o', s2, ch2. split; auto. intros r id ->.
  destruct (write_wok c) as (_ & Hwok & _).
  destruct (wrun_prefix _ _ S _ (Hwok gs (f_app fs gs) (vs ++ ws) ws) _ _ _ _ E)
    as [_ [(_ & _ & H3)|(ch' & bs & e & _ & _ & H3 & H4)]].
  - destruct (H3 _ eq_refl). auto.
  - inversion H3; subst e. destruct H4. auto.
Qed.
