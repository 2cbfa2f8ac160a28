(** * Fields put into a record of their own *)
From Coq Require Import ZifyBool ZifyNat.
From Verif Require Import Read Write WSpec Typing PropDefs MoreSpec Laws GroupSpec BytesFacts ProgFacts ReadFacts ReadMore ReadLemmas Safety.
From Verif Require Import WriteFacts WriteMain WriteLoc WriteRel AppendFacts EquivFacts LawMore.

(** ** Names *)

Lemma nodup_apart {A} (l m : list A) : NoDup (l ++ m) -> NoDup m /\ forall x, In x l -> ~ In x m.
Proof.
  induction l as [|a l IH]; simpl; intros H; [split; auto|].
  inversion H; subst. destruct (IH H3) as [N D]. split; auto.
  intros x [<-|Hx]; auto. intros Hm. apply H2, in_or_app. auto.
Qed.

Lemma wf_both fs : forall s1 s2 s, wf_fields s1 fs = true -> wf_fields s2 fs = true ->
  incl s s1 -> (forall i, In i s1 -> In i s2 -> In i s) -> wf_fields s fs = true.
Proof.
  induction fs as [|id t k fs IH]; intros s1 s2 s H1 H2 Hs Hi; auto.
  cbn [wf_fields] in *.
  apply andb_prop in H1 as [H1 A3]. apply andb_prop in H1 as [A1 A2].
  apply andb_prop in H2 as [H2 B3]. apply andb_prop in H2 as [B1 B2].
  rewrite (IH (id :: s1) (id :: s2)); auto.
  - rewrite (proj1 wf_refs t s1 s A2).
    + rewrite andb_true_r. destruct (memb id s) eqn:E; auto.
      apply memb_In, Hs, memb_In in E. rewrite E in A1. discriminate.
    + intros i Hr. apply Hi; eapply (proj1 refs_seen); eauto.
  - intros i [->|H]; simpl; auto.
  - intros i [->|H] [E|H']; simpl; auto; subst; auto.
Qed.

Lemma all_sources_refs fs : incl (all_sources fs) (refs_fields fs).
Proof.
  assert (HT : forall t, incl (len_source t) (refs t)).
  { intros t i. destruct t; simpl; try tauto; destruct l; simpl; tauto. }
  assert (HA : forall al, incl (alts_len_sources al) (refs_alts al)).
  { induction al; intros i; simpl; auto. rewrite !in_app_iff. intros [H|H]; auto. left. apply HT; auto. }
  induction fs as [|id t k fs IH]; intros i; cbn [all_sources refs_fields]; auto.
  rewrite !in_app_iff. intros [H|H]; auto. left.
  destruct t; simpl in *; auto; try (destruct l; simpl in *; tauto).
  - apply in_or_app. right. apply HT; auto.
  - apply in_or_app. rewrite in_app_iff in H. destruct H as [H|H]; [|right; apply HA; auto].
    destruct g; simpl in *; tauto.
Qed.

Lemma refs_fields_seen fs : forall seen i, wf_fields seen fs = true -> In i (refs_fields fs) ->
  In i seen \/ In i (f_ids fs).
Proof.
  induction fs as [|id t k fs IH]; intros seen i H Hi; cbn [wf_fields refs_fields f_ids] in *; [tauto|].
  apply andb_prop in H as [H A3]. apply andb_prop in H as [A1 A2].
  apply in_app_or in Hi as [Hi|Hi].
  - left. eapply (proj1 refs_seen); eauto.
  - destruct (IH _ _ A3 Hi) as [[->|H']|H']; simpl; auto.
Qed.

Lemma sources_seen fs seen i : wf_fields seen fs = true -> In i (all_sources fs) ->
  In i seen \/ In i (f_ids fs).
Proof. intros H Hi. eapply refs_fields_seen; eauto. apply all_sources_refs; auto. Qed.

Section Group.
Variables (pre gs post : fields) (id : ident).
Notation F := (f_app pre (FCons id (FStruct gs) CNone post)).
Notation G := (f_app pre (f_app gs post)).
Hypothesis (HF : wf F = true) (HG : wf G = true) (Hid : ~ In id (f_ids gs)).

Lemma gr_pre : wf pre = true.
Proof. eapply wf_app_l; eauto. Qed.

Lemma gr_gs : wf_fields [] gs = true.
Proof.
  clear HG. apply wf_fields_app in HF as [_ H]. cbn [wf_fields wf_ty] in H.
  apply andb_prop in H as [H _]. apply andb_prop in H as [_ H]. auto.
Qed.

Lemma gr_ids : NoDup (f_ids pre ++ f_ids gs ++ f_ids post).
Proof. clear HF. apply wf_fields_ids in HG as [H _]. rewrite !f_ids_app in H. auto. Qed.

Lemma gr_id : ~ In id (f_ids pre) /\ ~ In id (f_ids post).
Proof.
  clear HG. apply wf_fields_ids in HF as [H _]. rewrite f_ids_app in H. cbn [f_ids] in H.
  apply NoDup_remove_2 in H. rewrite in_app_iff in H. tauto.
Qed.

Lemma gr_post : wf_fields (rev (f_ids pre)) post = true.
Proof.
  apply wf_fields_app in HF as [_ HF']. cbn [wf_fields] in HF'.
  apply andb_prop in HF' as [_ HF']. rewrite app_nil_r in HF'.
  apply wf_fields_app in HG as [_ HG']. apply wf_fields_app in HG' as [_ HG']. rewrite app_nil_r in HG'.
  eapply wf_both; [exact HF'|exact HG'| |].
  - intros i H. right. auto.
  - intros i [->|H] H'; auto. apply in_app_or in H' as [H'|H']; auto.
    apply in_rev in H'. tauto.
Qed.

Lemma gr_apart i : (In i (f_ids pre) \/ In i (f_ids post)) -> ~ In i (f_ids gs).
Proof.
  intros H H'. destruct (nodup_apart _ _ gr_ids) as [N D].
  destruct H as [H|H].
  - apply (D i H), in_or_app. auto.
  - destruct (nodup_apart _ _ N) as [_ D']. apply (D' i); auto.
Qed.

Lemma gr_apart' i : In i (f_ids pre) -> ~ In i (f_ids post).
Proof.
  intros H H'. destruct (nodup_apart _ _ gr_ids) as [N D]. apply (D i H), in_or_app. auto.
Qed.

(** ** Reading *)

Lemma read_fields_names c S alloc fs seen e s r i s' ev : wf_fields seen fs = true ->
  rrun S alloc (read_fields c e fs) s = (Err (r, i), s', ev) -> In i (f_ids fs).
Proof.
  clear. intros H Hr. destruct reader_all as (_ & Hf & _).
  destruct (rrun_all _ _ _ _ S alloc _ (Hf fs c seen e H) _ _ _ _ Hr) as (_ & _ & He).
  specialize (He _ eq_refl). simpl in He. intuition.
Qed.

Lemma grouped_app vs w us : length vs = f_len pre -> length w = f_len gs ->
  grouped (f_len pre) (f_len gs) (vs ++ w ++ us) = vs ++ VRec w :: us.
Proof.
  clear. intros H1 H2. unfold grouped.
  rewrite firstn_app, skipn_app, <- H1, Nat.sub_diag, firstn_all, skipn_all. simpl.
  rewrite firstn_app, skipn_app, <- H2, Nat.sub_diag, firstn_all, skipn_all. simpl.
  rewrite !app_nil_r. auto.
Qed.

Lemma group_read c S alloc s :
  rrun S alloc (struct_cast c F) s =
  let '(o, s', ev) := rrun S alloc (struct_cast c G) s in
  (grouped_outcome (grouped (f_len pre) (f_len gs)) (f_ids gs) id o, s', ev).
Proof.
  rewrite (req_rrun S alloc _ _ (struct_cast_app c pre _ HG)).
  rewrite (req_rrun S alloc _ _ (struct_cast_app c pre _ HF)). rewrite !rrun_bind.
  destruct (rrun S alloc (struct_cast c pre) s) as [[[vs|[r i]| | |] s1] ev1] eqn:E1; auto.
  2: { simpl. unfold blamed. destruct (memb i (f_ids gs)) eqn:E; auto. exfalso.
       apply memb_In in E. apply (gr_apart i); auto. left.
       eapply read_fields_names; [apply gr_pre|exact E1]. }
  pose proof (rrun_read_fields_length _ _ _ _ _ _ _ _ _ E1) as L1.
  set (eG := mk_env G (default_fields G)). set (eF := mk_env F (default_fields F)).
  assert (DG : dom G eG) by (apply dom_mk_env, default_fields_length).
  assert (DF : dom F eF) by (apply dom_mk_env, default_fields_length).
  rewrite !rrun_bind. cbn [read_fields read_ty].
  rewrite (req_rrun S alloc _ _ (read_fields_app c gs post (updates eG pre vs))).
  rewrite !rrun_bind.
  assert (EQ : req (read_fields c (updates eG pre vs) gs) (struct_cast c gs)).
  { apply read_fields_agree with (seen := []); auto using gr_gs.
    - intros i Hi. discriminate.
    - intros i Hi. rewrite lookup_updates_out by (intros H; apply (gr_apart i); auto).
      apply DG. rewrite !f_ids_app. auto using in_or_app.
    - apply dom_mk_env, default_fields_length. }
  rewrite (req_rrun S alloc _ _ EQ). rewrite rrun_maperr, !rrun_bind, rrun_maperr.
  fold (struct_cast c gs).
  destruct (rrun S alloc (struct_cast c gs) s1) as [[[w|[r i]| | |] s2] ev2] eqn:E2; auto.
  2: { simpl. unfold blamed. rewrite (proj2 (memb_In i (f_ids gs))); auto.
       eapply read_fields_names; [apply gr_gs|exact E2]. }
  pose proof (rrun_read_fields_length _ _ _ _ _ _ _ _ _ E2) as L2.
  cbn [rrun rcheck check]. rewrite !rrun_bind.
  assert (EQ2 : req (read_fields c (update (updates eF pre vs) id (VRec w)) post)
                    (read_fields c (updates (updates eG pre vs) gs w) post)).
  { destruct gr_id as [I1 I2].
    apply read_fields_agree with (seen := rev (f_ids pre)); auto using gr_post.
    - intros i Hi. apply memb_In, in_rev in Hi.
      rewrite lookup_update_other by (intros ->; tauto).
      rewrite (lookup_updates_out gs) by (apply gr_apart; auto).
      pose proof (nodup_apart _ _ gr_ids) as N.
      rewrite !lookup_updates; auto.
      all: try (intros j Hj; first [apply DG | apply DF]; rewrite !f_ids_app; auto using in_or_app).
      all: apply wf_fields_ids with (seen := []), gr_pre.
    - intros i Hi. rewrite lookup_update_other by (intros ->; tauto).
      rewrite lookup_updates_out by (intros H; apply (gr_apart' i); auto).
      apply DF. rewrite f_ids_app. apply in_or_app. simpl. auto.
    - intros i Hi. rewrite !lookup_updates_out by first [apply gr_apart; auto | intros H; apply (gr_apart' i); auto].
      apply DG. rewrite !f_ids_app. auto using in_or_app. }
  rewrite (req_rrun S alloc _ _ EQ2).
  destruct (rrun S alloc (read_fields c (updates (updates eG pre vs) gs w) post) s2) as [[[us|[r i]| | |] s3] ev3] eqn:E3;
    cbn; rewrite ?app_nil_r; auto.
  - rewrite grouped_app; auto.
  - unfold blamed. destruct (memb i (f_ids gs)) eqn:E; auto. exfalso.
    apply memb_In in E. apply (gr_apart i); auto. right.
    eapply read_fields_names; [apply gr_post|exact E3].
Qed.

End Group.

(** ** Writing: the parts of a struct that a field's writer looks at *)

Section Context.
Variables (c : cfg) (F F' : fields) (V V' : list val) (P Q : ident -> Prop).
Hypothesis (Henv : forall i, P i -> lookup (mk_env F V) i = lookup (mk_env F' V') i).
Hypothesis (Hder : forall i, Q i -> is_derived F i = is_derived F' i).
Hypothesis (Hval : forall i t n, Q i -> derive_value c F V i t n = derive_value c F' V' i t n).
Hypothesis (Hobl : forall i, Q i -> has_cond_obligation F i = has_cond_obligation F' i).
Hypothesis (Hver : forall i w, Q i ->
  verify_cond (mk_env F V) i w F V = verify_cond (mk_env F' V') i w F' V').

Lemma cx_agree seen : (forall i, In i seen -> P i) -> agree seen (mk_env F V) (mk_env F' V').
Proof. clear Hder Hval Hobl Hver. intros H i Hi. apply Henv, H, memb_In, Hi. Qed.

Lemma cx_then id t n v : Q id ->
  verify_then_write c F V id t n v = verify_then_write c F' V' id t n v.
Proof.
  clear Hder Hval. intros H. unfold verify_then_write. rewrite Hobl by auto.
  destruct (has_cond_obligation F' id); auto. destruct v; auto. rewrite Hver by auto. auto.
Qed.

Lemma cx_fixed id mem k t n v : Q id ->
  write_fixed c F V id mem k t n v = write_fixed c F' V' id mem k t n v.
Proof.
  intros H. unfold write_fixed. rewrite Hder, Hval by auto.
  destruct (is_derived F' id).
  - destruct (derive_value _ _ _ _ _ _); auto. rewrite cx_then; auto.
  - rewrite cx_then by auto. destruct (mem && _); auto. destruct (frozen_value _ _); auto.
    apply cx_then; auto.
Qed.

Lemma cx_len seen l z : (forall i, In i seen -> P i) -> len_wf seen l = true ->
  verify_len c (mk_env F V) l z = verify_len c (mk_env F' V') l z.
Proof.
  intros H Hw. destruct l; auto. unfold verify_len.
  rewrite (deduce_len_agree c seen (mk_env F V) (mk_env F' V')); auto using cx_agree.
Qed.

Lemma cx_write :
  (forall t seen id mem k v, wf_ty seen t = true -> (forall i, In i seen -> P i) ->
     Q id -> write_ty c F V id mem k t v = write_ty c F' V' id mem k t v) /\
  (forall hs : fields, True) /\
  (forall al seen id i v, wf_alts seen al = true -> (forall i, In i seen -> P i) ->
     Q id -> write_alts c F V id al i v = write_alts c F' V' id al i v).
Proof.
  apply schema_mutind.
  - intros t n seen id mem k v Hw Hs Hi. cbn [write_ty]. apply cx_fixed; auto.
  - intros elt l b seen id mem k v Hw Hs Hi. cbn [write_ty wf_ty] in *.
    apply andb_true_iff in Hw. destruct Hw as [_ Hw]. destruct v; auto.
    rewrite (cx_len seen); auto.
  - intros; reflexivity.
  - intros; reflexivity.
  - intros hs _ recsz l b seen id mem k v Hw Hs Hi. cbn [write_ty wf_ty] in *.
    apply andb_true_iff in Hw. destruct Hw as [_ Hw]. destruct v; auto.
    rewrite (cx_len seen); auto.
  - intros b IH p ids seen id mem k v Hw Hs Hi. cbn [write_ty wf_ty] in *.
    apply andb_true_iff in Hw. destruct Hw as [W1 W2].
    rewrite (agree_lookups seen _ _ ids (cx_agree seen Hs) W1).
    destruct (lookups _ _); auto. destruct (p l), v; auto. eapply IH; eauto.
  - intros g al IH seen id mem k v Hw Hs Hi. cbn [write_ty wf_ty] in *.
    apply andb_true_iff in Hw. destruct Hw as [W1 W2]. destruct v; auto.
    rewrite (deduce_type_agree seen _ _ g (cx_agree seen Hs) W1).
    rewrite (IH seen id i v W2 Hs Hi). auto.
  - auto.
  - auto.
  - reflexivity.
  - intros t IHt k al IHal seen id i v Hw Hs Hi. cbn [write_alts wf_alts] in *.
    apply andb_true_iff in Hw. destruct Hw as [W1 W2]. destruct i.
    + rewrite (IHt seen id false k v); auto.
    + eapply IHal; eauto.
Qed.

Lemma cx_fields : forall hs seen us, wf_fields seen hs = true ->
  (forall i, In i seen \/ In i (f_ids hs) -> P i) -> (forall i, In i (f_ids hs) -> Q i) ->
  write_fields c F V hs us = write_fields c F' V' hs us.
Proof.
  induction hs as [|id t k hs IH]; intros seen [|u us] Hw Hs Hq; auto. cbn [write_fields wf_fields f_ids] in *.
  apply andb_true_iff in Hw. destruct Hw as [Hw W3]. apply andb_true_iff in Hw. destruct Hw as [W1 W2].
  assert (Hi : Q id) by (apply Hq; simpl; auto).
  rewrite Hder by auto. destruct cx_write as (Hty & _).
  rewrite (Hty t seen id true k u); auto.
  rewrite (IH (id :: seen)); auto.
  - intros i [[->|H]|H]; apply Hs; simpl; auto.
  - intros i H. apply Hq. simpl. auto.
Qed.
End Context.

(** ** Lists in three parts *)

Lemma derived_split a b i : is_derived (f_app a b) i = is_derived a i || is_derived b i.
Proof.
  unfold is_derived.
  assert (is_length_derived (f_app a b) i = is_length_derived a i || is_length_derived b i) as ->
    by (induction a; simpl; auto; rewrite IHa; auto using orb_assoc).
  assert (is_disc_derived (f_app a b) i = is_disc_derived a i || is_disc_derived b i) as ->
    by (induction a; simpl; auto; rewrite IHa; auto using orb_assoc).
  destruct (is_length_derived a i), (is_length_derived b i), (is_disc_derived a i); auto.
Qed.

Lemma derived_silent gs i : ~ In i (all_sources gs) -> is_derived gs i = false.
Proof. intros H. apply (derived_app FNil gs i) in H. auto. Qed.

Lemma cond_split a b i : has_cond_obligation (f_app a b) i = has_cond_obligation a i || has_cond_obligation b i.
Proof. induction a; simpl; auto. rewrite IHa. auto using orb_assoc. Qed.

Lemma cond_silent gs i : ~ In i (all_sources gs) -> has_cond_obligation gs i = false.
Proof. intros H. apply (cond_app FNil gs i) in H. auto. Qed.

Lemma fold_split c i a b ws : forall vs d, length vs = f_len a ->
  derive_fold c i (f_app a b) (vs ++ ws) d =
  match derive_fold c i a vs d with Some d' => derive_fold c i b ws d' | None => None end.
Proof.
  induction a; intros [|v vs] d L; simpl in L; try discriminate; auto.
  cbn [f_app app derive_fold]. destruct (implied _ _ _ _) as [[z|]|]; auto.
Qed.

Definition both (a b : option bool) : option bool :=
  match a, b with Some x, Some y => Some (x && y) | _, _ => None end.

Lemma both_assoc a b d : both (both a b) d = both a (both b d).
Proof. destruct a, b, d; simpl; auto. rewrite andb_assoc; auto. Qed.

Lemma verify_split e i w a b ws : forall vs, length vs = f_len a ->
  verify_cond e i w (f_app a b) (vs ++ ws) = both (verify_cond e i w a vs) (verify_cond e i w b ws).
Proof.
  induction a; intros [|v vs] L; simpl in L; try discriminate; cbn [f_app app verify_cond].
  - destruct (verify_cond e i w b ws); auto.
  - rewrite IHa by auto. change (both (cond_agrees e i w t v) (both (verify_cond e i w a vs) (verify_cond e i w b ws)) = both (both (cond_agrees e i w t v) (verify_cond e i w a vs)) (verify_cond e i w b ws)).
    symmetry. apply both_assoc.
Qed.

Lemma verify_env e e' i w fs : forall seen vs, wf_fields seen fs = true ->
  (forall j, In j seen \/ In j (f_ids fs) -> lookup e j = lookup e' j) ->
  verify_cond e i w fs vs = verify_cond e' i w fs vs.
Proof.
  induction fs as [|j t k fs IH]; intros seen [|v vs] Hw He; auto.
  cbn [verify_cond wf_fields] in *.
  apply andb_true_iff in Hw. destruct Hw as [Hw W3]. apply andb_true_iff in Hw. destruct Hw as [W1 W2].
  rewrite (IH (j :: seen) vs); auto.
  - assert (cond_agrees e i w t v = cond_agrees e' i w t v) as ->; auto.
    unfold cond_agrees. destruct (ident_is _ _); auto. destruct t; auto.
    destruct v; auto. cbn [wf_ty] in W2. apply andb_true_iff in W2. destruct W2 as [W2 _].
    assert (lookups e ids = lookups e' ids) as ->; auto.
    apply (agree_lookups seen); auto. intros l Hl. apply He. left. apply memb_In; auto.
  - intros l [[->|Hl]|Hl]; apply He; simpl; auto.
Qed.

Lemma lookup_split a b va vb i : length va = f_len a ->
  lookup (mk_env (f_app a b) (va ++ vb)) i =
  if memb i (f_ids a) then lookup (mk_env a va) i else lookup (mk_env b vb) i.
Proof.
  revert va. induction a as [|j t k a IH]; intros [|v va] L; simpl in L; try discriminate; auto.
  cbn [f_app app mk_env lookup f_ids]. unfold memb in *. cbn [existsb].
  rewrite (String.eqb_sym i j). destruct (String.eqb j i); auto.
Qed.

Lemma has_split a b : forall va vb, length va = f_len a -> has_fields (f_app a b) (va ++ vb) ->
  has_fields a va /\ has_fields b vb.
Proof.
  induction a; intros [|v va] vb L H; simpl in L; try discriminate; [split; simpl; auto|].
  cbn [f_app app has_fields] in *. destruct H as [H1 H2]. apply IHa in H2; [|lia]. tauto.
Qed.

Lemma has_cut a b vs : has_fields (f_app a b) vs -> exists va vb, vs = va ++ vb /\
  has_fields a va /\ has_fields b vb.
Proof.
  revert vs. induction a; intros vs H; cbn [f_app has_fields] in *; [exists [], vs; simpl; auto|].
  destruct vs as [|v vs]; [tauto|]. destruct H as [H1 H2]. apply IHa in H2 as (va & vb & -> & A & B).
  exists (v :: va), vb. simpl. auto.
Qed.

(** Errors are only renamed. *)
Lemma maperr_maperr {E1 E2 E3 A} (g : E2 -> E3) (h : E1 -> E2) (p : wprog E1 A) :
  wmaperr g (wmaperr h p) = wmaperr (fun e => g (h e)) p.
Proof. induction p; simpl; congruence. Qed.

Lemma maperr_ext {E E' A} (g h : E -> E') (p : wprog E A) : (forall e, g e = h e) ->
  wmaperr g p = wmaperr h p.
Proof. intros H. induction p; simpl; congruence. Qed.

Lemma maperr_names c F V (g h : reason * ident -> reason * ident) : forall hs us,
  (forall r i, In i (f_ids hs) -> g (r, i) = h (r, i)) ->
  wmaperr g (write_fields c F V hs us) = wmaperr h (write_fields c F V hs us).
Proof.
  induction hs as [|i t k hs IH]; intros [|u us] H; auto.
  cbn [write_fields]. rewrite (wmaperr_bind' g), (wmaperr_bind' h), !maperr_maperr.
  apply wbind_ext2.
  - apply maperr_ext. intros r. apply H. simpl. auto.
  - intros _. apply IH. intros r j Hj. apply H. simpl. auto.
Qed.

Section WGroup.
Variables (c : cfg) (pre gs post : fields) (id : ident) (vs w us : list val).
Notation F := (f_app pre (FCons id (FStruct gs) CNone post)).
Notation G := (f_app pre (f_app gs post)).
Notation VF := (vs ++ VRec w :: us).
Notation VG := (vs ++ w ++ us).
Hypothesis (HF : wf F = true) (HG : wf G = true) (Hid : ~ In id (f_ids gs)).
Hypothesis (Hv : has_fields pre vs) (Hw : has_fields gs w) (Hu : has_fields post us).

Let L1 : length vs = f_len pre := has_fields_length _ _ Hv.
Let L2 : length w = f_len gs := has_fields_length _ _ Hw.
Let L3 : length us = f_len post := has_fields_length _ _ Hu.

Lemma src_gs i : In i (all_sources gs) -> In i (f_ids gs).
Proof. intros H. destruct (sources_seen gs [] i (gr_gs _ _ _ _ HF) H) as [[]|]; auto. Qed.

Lemma src_pre i : In i (all_sources pre) -> In i (f_ids pre).
Proof. intros H. destruct (sources_seen pre [] i (gr_pre _ _ _ HG) H) as [[]|]; auto. Qed.

Lemma src_post i : In i (all_sources post) -> In i (f_ids pre) \/ In i (f_ids post).
Proof.
  intros H. destruct (sources_seen post _ i (gr_post _ _ _ _ HF HG Hid) H) as [H'|]; auto.
  left. apply in_rev; auto.
Qed.

Lemma outer_ctx hs seen ws : wf_fields seen hs = true ->
  (forall i, In i seen \/ In i (f_ids hs) -> In i (f_ids pre) \/ In i (f_ids post)) ->
  write_fields c F VF hs ws = write_fields c G VG hs ws.
Proof.
  intros H Hs.
  assert (AP := gr_apart pre gs post HG). assert (I := gr_id pre gs post id HF).
  assert (ENV : forall i, In i (f_ids pre) \/ In i (f_ids post) ->
    lookup (mk_env F VF) i = lookup (mk_env G VG) i).
  { intros i Hi. rewrite !lookup_split by auto. destruct (memb i (f_ids pre)) eqn:E; auto.
    destruct (memb i (f_ids gs)) eqn:E'.
    - apply memb_In in E'. exfalso. apply (AP i); auto.
    - cbn [mk_env lookup]. destruct (String.eqb_spec id i); auto. subst. tauto. }
  apply (cx_fields c F G VF VG (fun i => In i (f_ids pre) \/ In i (f_ids post)) (fun i => In i (f_ids pre) \/ In i (f_ids post))) with (seen := seen); auto.
  - intros i Hi. rewrite !derived_split. rewrite (derived_silent gs); [reflexivity|].
    intros Hn. apply src_gs in Hn. apply (AP i); auto.
  - intros i t n Hi. unfold derive_value. destruct t; auto.
    rewrite !fold_split by auto. destruct (derive_fold c i pre vs _) as [d|]; auto.
    rewrite fold_split by auto. rewrite (fold_silent c i gs); auto.
    intros Hn. apply src_gs in Hn. apply (AP i); auto.
  - intros i Hi. rewrite !cond_split. rewrite (cond_silent gs); [reflexivity|].
    intros Hn. apply src_gs in Hn. apply (AP i); auto.
  - intros i z Hi. rewrite !verify_split by auto.
    rewrite (verify_silent (mk_env G VG) i z gs); auto.
    2: { intros Hn. apply src_gs in Hn. apply (AP i); auto. }
    cbn [verify_cond]. change (cond_agrees (mk_env F VF) i z (FStruct gs) (VRec w)) with (Some true).
    rewrite (verify_env (mk_env F VF) (mk_env G VG) i z pre [] vs); auto using (gr_pre _ _ _ HG).
    + rewrite (verify_env (mk_env F VF) (mk_env G VG) i z post (rev (f_ids pre)) us);
        auto using (gr_post _ _ _ _ HF HG Hid).
      intros j [Hj|Hj]; apply ENV; auto. left. apply in_rev; auto.
    + intros j [[]|Hj]. apply ENV; auto.
Qed.

Lemma inner_ctx : write_fields c gs w gs w = write_fields c G VG gs w.
Proof.
  assert (AP := gr_apart pre gs post HG).
  assert (ENV : forall i, In i (f_ids gs) -> lookup (mk_env gs w) i = lookup (mk_env G VG) i).
  { intros i Hi. rewrite !lookup_split by auto. destruct (memb i (f_ids pre)) eqn:E.
    - apply memb_In in E. exfalso. apply (AP i); auto.
    - rewrite (proj2 (memb_In i (f_ids gs))) by auto. auto. }
  assert (NP : forall i, In i (f_ids gs) -> ~ In i (all_sources pre)).
  { intros i Hi Hn. apply src_pre in Hn. apply (AP i); auto. }
  assert (NQ : forall i, In i (f_ids gs) -> ~ In i (all_sources post)).
  { intros i Hi Hn. apply src_post in Hn. apply (AP i); auto. }
  apply (cx_fields c gs G w VG (fun i => In i (f_ids gs)) (fun i => In i (f_ids gs))) with (seen := []); auto.
  - intros i Hi. rewrite !derived_split. rewrite (derived_silent pre), (derived_silent post) by auto.
    rewrite orb_false_r. auto.
  - intros i t n Hi. unfold derive_value. destruct t; auto.
    rewrite fold_split by auto. rewrite (fold_silent c i pre) by auto.
    rewrite fold_split by auto. destruct (derive_fold c i gs w _); auto.
    rewrite (fold_silent c i post) by auto. auto.
  - intros i Hi. rewrite !cond_split. rewrite (cond_silent pre), (cond_silent post) by auto.
    rewrite orb_false_r. auto.
  - intros i z Hi. rewrite !verify_split by auto.
    rewrite (verify_silent (mk_env G VG) i z pre), (verify_silent (mk_env G VG) i z post) by auto.
    rewrite (verify_env (mk_env gs w) (mk_env G VG) i z gs [] w); auto using (gr_gs _ _ _ _ HF).
    + destruct (verify_cond (mk_env G VG) i z gs w) as [b|]; simpl; auto. rewrite andb_true_r. auto.
    + intros j [[]|Hj]; auto.
  - apply (gr_gs _ _ _ _ HF).
  - intros i [[]|Hi]; auto.
Qed.

Lemma group_prog : stream_cast c F VF =
  wmaperr (fun e => (fst e, blamed (f_ids gs) id (snd e))) (stream_cast c G VG).
Proof.
  assert (AP := gr_apart pre gs post HG). assert (I := gr_id pre gs post id HF).
  set (g := fun e : reason * ident => (fst e, blamed (f_ids gs) id (snd e))).
  assert (KEEP : forall hs ws, (forall i, In i (f_ids hs) -> ~ In i (f_ids gs)) ->
    wmaperr g (write_fields c G VG hs ws) = write_fields c G VG hs ws).
  { intros hs ws H. rewrite (maperr_names c G VG g (fun e => e)).
    - induction (write_fields c G VG hs ws); simpl; congruence.
    - intros r i Hi. unfold g, blamed. simpl. destruct (memb i (f_ids gs)) eqn:E; auto.
      apply memb_In in E. exfalso. eapply H; eauto. }
  unfold stream_cast. rewrite !write_fields_app by auto. rewrite !wmaperr_bind'.
  apply wbind_ext2.
  - rewrite KEEP by auto. apply (outer_ctx pre []); [apply (gr_pre _ _ _ HG)|].
    intros i [[]|H]; auto.
  - intros _. rewrite ?wmaperr_bind'. cbn [write_fields].
    apply wbind_ext2.
    + assert ((if is_derived F id || is_frozen (FStruct gs) CNone then WRet tt else wcheck CNone (VRec w)) =
              WRet tt (E := reason)) as ->.
      { destruct (is_derived F id || _); auto. }
      cbn [wbind write_ty]. rewrite maperr_maperr. rewrite inner_ctx.
      apply maperr_names. intros r i Hi. unfold g, blamed. simpl.
      rewrite (proj2 (memb_In i (f_ids gs))); auto.
    + intros _. rewrite KEEP by auto. apply (outer_ctx post (rev (f_ids pre))).
      * apply (gr_post _ _ _ _ HF HG Hid).
      * intros i [H|H]; auto. left. apply in_rev; auto.
Qed.
End WGroup.

Lemma group_write c pre gs post id vs S s :
  wf (f_app pre (FCons id (FStruct gs) CNone post)) = true ->
  wf (f_app pre (f_app gs post)) = true -> ~ In id (f_ids gs) ->
  has_fields (f_app pre (f_app gs post)) vs ->
  wrun S (stream_cast c (f_app pre (FCons id (FStruct gs) CNone post))
            (grouped (f_len pre) (f_len gs) vs)) s =
  let '(o, s', ch) := wrun S (stream_cast c (f_app pre (f_app gs post)) vs) s in
  (grouped_outcome (fun a => a) (f_ids gs) id o, s', ch).
Proof.
  intros HF HG Hid H. apply has_cut in H as (va & vb & -> & Ha & H).
  apply has_cut in H as (w & us & -> & Hw & Hu).
  rewrite grouped_app by (apply has_fields_length; auto).
  rewrite (group_prog c pre gs post id va w us HF HG Hid Ha Hw Hu). rewrite wrun_maperr'.
  destruct (wrun S (stream_cast c (f_app pre (f_app gs post)) (va ++ w ++ us)) s) as [[[a|[r i]| | |] s'] ch]; auto.
Qed.

Lemma group_read' c pre gs post id S alloc s :
  wf (f_app pre (FCons id (FStruct gs) CNone post)) = true ->
  wf (f_app pre (f_app gs post)) = true -> ~ In id (f_ids gs) ->
  rrun S alloc (struct_cast c (f_app pre (FCons id (FStruct gs) CNone post))) s =
  let '(o, s', ev) := rrun S alloc (struct_cast c (f_app pre (f_app gs post))) s in
  (grouped_outcome (grouped (f_len pre) (f_len gs)) (f_ids gs) id o, s', ev).
Proof. intros. apply group_read; auto. Qed.
