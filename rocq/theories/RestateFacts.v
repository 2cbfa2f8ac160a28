(** Lengths and discriminants restated as computations. *)
From Coq Require Import ZifyBool ZifyNat.
From Verif Require Import Read Write Spec WSpec PropDefs Typing BytesFacts ProgFacts ReadFacts ReadMore
  ReadLemmas ReadFinal Safety RestateSpec Rewrite RTrip2.

Scheme rsty_mut := Minimality for restated_ty Sort Prop
with rsfields_mut := Minimality for restated_fields Sort Prop
with rsalts_mut := Minimality for restated_alts Sort Prop.
Combined Scheme restated_mutind from rsty_mut, rsfields_mut, rsalts_mut.

(** ** Programs that agree on what streams deliver *)

Inductive dreq {E A} : rprog E A -> rprog E A -> Prop :=
| dreq_ret a : dreq (RRet a) (RRet a)
| dreq_err e : dreq (RErr e) (RErr e)
| dreq_ub : dreq RUB RUB
| dreq_stuck : dreq RStuck RStuck
| dreq_read n e k k' :
    (forall bs, length bs = Z.to_nat n -> Forall byte_ok bs -> dreq (k bs) (k' bs)) ->
    dreq (RRead n e k) (RRead n e k')
| dreq_alloc n k k' : dreq k k' -> dreq (RAlloc n k) (RAlloc n k').

Lemma dreq_refl {E A} (p : rprog E A) : dreq p p.
Proof. induction p; constructor; auto. Qed.

Lemma dreq_bind {E A B} (P : A -> Prop) (p p' : rprog E A) (f f' : A -> rprog E B) :
  dreq p p' -> rsafe True P p -> (forall a, P a -> dreq (f a) (f' a)) ->
  dreq (rbind p f) (rbind p' f').
Proof. intros H Hs Hf. induction H; simpl in *; try constructor; auto. Qed.

Lemma dreq_bind' {E A B} (p p' : rprog E A) (f f' : A -> rprog E B) :
  dreq p p' -> (forall a, dreq (f a) (f' a)) -> dreq (rbind p f) (rbind p' f').
Proof. intros H Hf. induction H; simpl in *; try constructor; auto. Qed.

Lemma dreq_maperr {E E' A} (g : E -> E') (p p' : rprog E A) :
  dreq p p' -> dreq (rmaperr g p) (rmaperr g p').
Proof. induction 1; simpl; constructor; auto. Qed.

Lemma dreq_rrep {E A} n (p p' : rprog E A) : dreq p p' -> dreq (rrep n p) (rrep n p').
Proof.
  intros H. induction n; simpl; [constructor|].
  apply dreq_bind'; auto. intros a. apply dreq_bind'; auto. intros; constructor.
Qed.

Lemma dreq_rrun {E A} S alloc (p p' : rprog E A) : delivers S -> dreq p p' ->
  forall s, rrun S alloc p s = rrun S alloc p' s.
Proof.
  intros Hd. induction 1; intros s; simpl; auto.
  - destruct (i_read S s n) as [[bs|] s1] eqn:Ei; auto. apply Hd in Ei. destruct Ei.
    rewrite H0; auto.
  - destruct (alloc n); auto. rewrite IHdreq. auto.
Qed.

Lemma dreq_rmem {E A} (p p' : rprog E A) : dreq p p' ->
  rall (fun _ => True) (fun _ => True) (fun n => 0 <= n) (fun _ => True) p ->
  forall bs, Forall byte_ok bs -> rmem p bs = rmem p' bs.
Proof.
  induction 1; simpl; intros Ha bs Hb; auto.
  - destruct Ha as (Hn & _ & Ha). destruct (Z.leb_spec n (Z.of_nat (length bs))); auto.
    apply H0; auto using Forall_firstn, Forall_skipn. rewrite firstn_length. lia.
  - apply IHdreq; tauto.
Qed.

(** ** The same questions *)

Lemma same_len_deduce c G seen e l l' : same_len l l' -> env_has G e -> covers seen e ->
  len_wf seen l = true -> len_typed G l = true -> deduce_len c e l' = deduce_len c e l.
Proof.
  intros H Hg Hc Hw Ht. destruct H as [l|id]; auto.
  destruct (len_value_typed _ _ _ _ Hg Hc Hw Ht) as [z Hz]. simpl. rewrite Hz. auto.
Qed.

Lemma ladder_switch e f r ids vs cases : lookups e ids = Some vs ->
  eval_ladder e (map (branch f r ids) cases) = Some (eval_switch r (conv r (f vs)) cases).
Proof.
  intros H. unfold eval_switch. induction cases as [|sv cases IH]; simpl; auto.
  rewrite H, IH. destruct (cxx_eq _ _ _ _); auto.
Qed.

Lemma same_guide_deduce G seen e g g' n : same_guide g g' -> env_has G e -> covers seen e ->
  guide_wf seen g = true -> guide_typed G g n = true -> deduce_type e g' = deduce_type e g.
Proof.
  intros H Hg Hc Hw Ht.
  assert (Hf : forall id s cases, guide_typed G (GField id s cases) n = true ->
    exists z, lookup e id = Some (VZ z) /\ sc_in s z = true).
  { simpl. intros id s cases T. destruct (tlookup G id) as [t|] eqn:E; [|discriminate].
    apply Hg in E. destruct E as (v & Hl & Hv).
    destruct t as [[s'| | |]| | | | | |]; try discriminate. simpl in Hv. destruct v; try tauto.
    apply andb_true_iff in T. destruct T as [T _]. apply sty_eqb_eq in T. subst. eauto. }
  destruct H as [g|id s cases|f r ids cases|id s cases]; auto.
  - destruct (Hf _ _ _ Ht) as (z & Hz & Hs). simpl. rewrite Hz. simpl. rewrite conv_id; auto.
  - destruct (covers_lookups _ _ _ Hc Hw) as [vs Hvs].
    cbn [deduce_type]. rewrite (ladder_switch _ _ _ _ vs); auto. rewrite Hvs. auto.
  - destruct (Hf _ _ _ Ht) as (z & Hz & Hs).
    cbn [deduce_type]. rewrite (ladder_switch _ _ _ _ [VZ z]); [|simpl; rewrite Hz; auto].
    rewrite Hz. simpl. rewrite conv_id; auto.
Qed.

(** ** Shapes *)

Lemma restated_shape :
  (forall t t', restated_ty t t' -> default_ty t' = default_ty t) /\
  (forall fs fs', restated_fields fs fs' ->
     f_ids fs' = f_ids fs /\ default_fields fs' = default_fields fs) /\
  (forall al al', restated_alts al al' -> a_len al' = a_len al /\ default_alts al' = default_alts al).
Proof.
  apply restated_mutind; simpl; intros;
    repeat match goal with H : _ /\ _ |- _ => destruct H end;
    repeat match goal with H : _ = _ |- _ => rewrite H; clear H end; auto.
Qed.

Lemma mk_env_ids fs : forall fs' vs, f_ids fs' = f_ids fs -> mk_env fs' vs = mk_env fs vs.
Proof.
  induction fs; intros [|id' t' k' fs'] vs H; simpl in *; try discriminate; auto.
  inversion H; subst. destruct vs; auto. f_equal; auto.
Qed.

Lemma restated_ids fs fs' : restated_fields fs fs' -> f_ids fs' = f_ids fs.
Proof. intros H. destruct restated_shape as (_ & X & _). apply X; auto. Qed.

Lemma restated_env fs fs' vs : restated_fields fs fs' -> mk_env fs' vs = mk_env fs vs.
Proof. intros H. apply mk_env_ids, restated_ids; auto. Qed.

Lemma restated_start fs fs' : restated_fields fs fs' ->
  mk_env fs' (default_fields fs') = mk_env fs (default_fields fs).
Proof.
  intros H. destruct restated_shape as (_ & X & _). destruct (X _ _ H) as [H1 H2].
  rewrite H2. apply mk_env_ids; auto.
Qed.

Lemma guide_wf_same g g' seen : same_guide g g' -> guide_wf seen g = true -> guide_wf seen g' = true.
Proof.
  assert (H : forall f r ids cases, all_in ids seen = true ->
    forallb (fun b => all_in (snd b) seen) (map (branch f r ids) cases) = true).
  { intros f r ids cases Hi. induction cases; simpl; auto. rewrite Hi. auto. }
  intros [g0|id s cases|f r ids cases|id s cases] Hw; cbn [guide_wf] in *; auto.
  - simpl. rewrite Hw. auto.
  - apply H. simpl. rewrite Hw. auto.
Qed.

Lemma len_wf_same l l' seen : same_len l l' -> len_wf seen l = true -> len_wf seen l' = true.
Proof. intros [l0|id] Hw; simpl in *; auto. rewrite Hw. auto. Qed.

Lemma restated_wf :
  (forall t t', restated_ty t t' -> forall seen, wf_ty seen t = true -> wf_ty seen t' = true) /\
  (forall fs fs', restated_fields fs fs' -> forall seen, wf_fields seen fs = true -> wf_fields seen fs' = true) /\
  (forall al al', restated_alts al al' -> forall seen, wf_alts seen al = true -> wf_alts seen al' = true).
Proof.
  apply restated_mutind; simpl; intros; rewrite ?andb_true_iff in *;
    intuition eauto using len_wf_same, guide_wf_same.
Qed.

(** The types of earlier fields, restated. *)
Definition trestated (G G' : tenv) : Prop := forall id,
  match tlookup G id, tlookup G' id with
  | Some t, Some t' => restated_ty t t'
  | None, None => True
  | _, _ => False
  end.

Lemma trestated_cons G G' id t t' : trestated G G' -> restated_ty t t' ->
  trestated ((id, t) :: G) ((id, t') :: G').
Proof. intros H Ht id'. simpl. destruct (String.eqb id id'); auto. apply H. Qed.

Lemma len_typed_same G G' l l' : trestated G G' -> same_len l l' -> len_typed G l = true ->
  len_typed G' l' = true.
Proof.
  intros H [l0|id] Ht; auto. destruct l0; auto. simpl in *. specialize (H id).
  destruct (tlookup G id), (tlookup G' id); try tauto; try discriminate. destruct H; auto.
Qed.

Lemma guide_typed_same G G' g g' n : trestated G G' -> same_guide g g' -> guide_typed G g n = true ->
  guide_typed G' g' n = true.
Proof.
  intros H Hg Ht.
  assert (Hf : forall id s cases, guide_typed G (GField id s cases) n = true ->
    guide_typed G' (GField id s cases) n = true /\ Nat.eqb (length cases) n = true).
  { simpl. intros id s cases T. specialize (H id).
    destruct (tlookup G id), (tlookup G' id); try tauto; try discriminate.
    destruct H; try discriminate. destruct t; try discriminate.
    apply andb_true_iff in T as T'. tauto. }
  destruct Hg as [g|id s cases|f r ids cases|id s cases].
  - destruct g; auto. apply Hf; auto.
  - apply (Hf id s cases); auto.
  - simpl in *. rewrite map_length. auto.
  - simpl. rewrite map_length. apply (Hf id s cases); auto.
Qed.

Lemma restated_flat t t' : restated_ty t t' -> flat t' = flat t.
Proof. destruct 1; auto. Qed.

Lemma restated_constr t t' k : restated_ty t t' -> constr_ok t' k = constr_ok t k.
Proof. destruct 1; auto. Qed.

Lemma trestated_nil : trestated [] [].
Proof. intros id. exact I. Qed.

Lemma restated_typed :
  (forall t t', restated_ty t t' -> forall G G', trestated G G' -> typed_ty G t = true -> typed_ty G' t' = true) /\
  (forall fs fs', restated_fields fs fs' -> forall G G', trestated G G' ->
     typed_fields G fs = true -> typed_fields G' fs' = true) /\
  (forall al al', restated_alts al al' -> forall G G', trestated G G' ->
     typed_alts G al = true -> typed_alts G' al' = true).
Proof.
  destruct restated_shape as (_ & _ & Hsh).
  apply restated_mutind; simpl; intros; rewrite ?andb_true_iff in *;
    repeat match goal with H : restated_ty ?t ?t' |- context [flat ?t'] => rewrite (restated_flat _ _ H) end;
    repeat match goal with H : restated_ty ?t ?t' |- context [constr_ok ?t' _] => rewrite (restated_constr _ _ _ H) end;
    repeat match goal with H : restated_alts ?t ?t' |- context [a_len ?t'] =>
      rewrite (proj1 (Hsh _ _ H)) end;
    intuition eauto using len_typed_same, guide_typed_same, trestated_nil, trestated_cons.
Qed.

Lemma restated_enc o :
  (forall t t', restated_ty t t' -> forall v, enc_ty o t' v = enc_ty o t v) /\
  (forall fs fs', restated_fields fs fs' -> forall vs, enc_fields o fs' vs = enc_fields o fs vs) /\
  (forall al al', restated_alts al al' -> forall i v, enc_alts o al' i v = enc_alts o al i v).
Proof.
  apply restated_mutind; simpl; intros; auto.
  - destruct v; auto.
  - destruct v; auto. apply flat_map_ext. intros []; auto.
  - destruct v; auto. apply flat_map_ext. intros []; auto.
  - destruct v; auto.
  - destruct v; auto.
  - destruct vs; auto. rewrite H0, H2. auto.
  - destruct i; auto.
Qed.

(** ** Reading *)

Lemma restated_record c fs fs' : restated_fields fs fs' ->
  dreq (struct_cast c fs) (struct_cast c fs') ->
  dreq (rbind (rmaperr fst (read_fields c (mk_env fs (default_fields fs)) fs)) (fun vs => RRet (VRec vs)))
       (rbind (rmaperr fst (read_fields c (mk_env fs' (default_fields fs')) fs')) (fun vs => RRet (VRec vs))).
Proof.
  intros H Hd. apply dreq_bind'; [|intros; apply dreq_refl]. apply dreq_maperr, Hd.
Qed.

Lemma restated_read c :
  (forall t t', restated_ty t t' -> forall G seen e,
     wf_ty seen t = true -> typed_ty G t = true -> env_has G e -> covers seen e ->
     dreq (read_ty c e t) (read_ty c e t')) /\
  (forall fs fs', restated_fields fs fs' -> forall G seen e,
     wf_fields seen fs = true -> typed_fields G fs = true -> env_has G e -> covers seen e -> dom fs e ->
     dreq (read_fields c e fs) (read_fields c e fs')) /\
  (forall al al', restated_alts al al' -> forall G seen e i,
     wf_alts seen al = true -> typed_alts G al = true -> env_has G e -> covers seen e ->
     dreq (read_alts c e al i) (read_alts c e al' i)).
Proof.
  assert (Hcast : forall fs fs', restated_fields fs fs' ->
    (forall G seen e, wf_fields seen fs = true -> typed_fields G fs = true -> env_has G e ->
       covers seen e -> dom fs e -> dreq (read_fields c e fs) (read_fields c e fs')) ->
    wf_fields [] fs = true -> typed_fields [] fs = true ->
    dreq (struct_cast c fs) (struct_cast c fs')).
  { intros fs fs' H IH Hw Ht. unfold struct_cast. rewrite (restated_start _ _ H).
    apply (IH [] []); auto.
    - intros ? ? Hl; discriminate.
    - intros ? [].
    - apply dom_mk_env, default_fields_length. }
  apply restated_mutind.
  - intros. apply dreq_refl.
  - intros elt l l' b H G seen e Hw Ht Hg Hc. cbn [read_ty wf_ty typed_ty] in *.
    apply andb_true_iff in Hw. rewrite (same_len_deduce c G seen e l l'); try tauto.
    apply dreq_refl.
  - intros fs fs' H IH G seen e Hw Ht Hg Hc. apply restated_record; auto.
  - intros n fs fs' H IH G seen e Hw Ht Hg Hc. cbn [read_ty].
    apply dreq_bind'; [|intros; apply dreq_refl]. apply dreq_rrep. apply restated_record; auto.
  - intros fs fs' sz l l' b H IH Hl G seen e Hw Ht Hg Hc. cbn [read_ty wf_ty typed_ty] in *.
    apply andb_true_iff in Hw. destruct Hw as [Hw H2].
    apply andb_true_iff in Hw. destruct Hw as [H1 H3].
    apply andb_true_iff in Ht. destruct Ht as [T1 T2].
    rewrite (same_len_deduce c G seen e l l'); auto.
    destruct (deduce_len c e l); [|apply dreq_refl].
    destruct (len_allowed _ _ _); [|apply dreq_refl]. constructor.
    apply dreq_bind'; [|intros; apply dreq_refl]. apply dreq_rrep. apply restated_record; auto.
  - intros b b' p ids H IH G seen e Hw Ht Hg Hc. cbn [read_ty wf_ty typed_ty] in *.
    apply andb_true_iff in Hw. destruct Hw as [H1 H2].
    apply andb_true_iff in Ht. destruct Ht as [_ Ht].
    destruct (lookups e ids); [|apply dreq_refl]. destruct (p l); [|apply dreq_refl].
    apply dreq_bind'; [|intros; apply dreq_refl]. eapply IH; eauto.
  - intros g g' al al' Hg' H IH G seen e Hw Ht Hg Hc. cbn [read_ty wf_ty typed_ty] in *.
    apply andb_true_iff in Hw. destruct Hw as [H1 H2].
    apply andb_true_iff in Ht. destruct Ht as [T1 T2].
    rewrite (same_guide_deduce G seen e g g' (a_len al)); auto.
    destruct (deduce_type e g) as [[i|]|]; try apply dreq_refl.
    apply dreq_bind'; [|intros; apply dreq_refl]. eapply IH; eauto.
  - intros. apply dreq_refl.
  - intros id t t' k fs fs' H IHt Hf IHf G seen e Hw Ht Hg Hc Hd.
    cbn [read_fields wf_fields typed_fields] in *.
    apply andb_true_iff in Hw. destruct Hw as [Hw H3].
    apply andb_true_iff in Hw. destruct Hw as [H1 H2].
    apply andb_true_iff in Ht. destruct Ht as [Ht T3].
    apply andb_true_iff in Ht. destruct Ht as [T1 T2].
    assert (Hx : exists w, lookup e id = Some w) by (apply Hd; left; auto).
    apply (dreq_bind (has_ty t)).
    + apply dreq_maperr. apply dreq_bind'; [eapply IHt; eauto|intros; apply dreq_refl].
    + apply rsafe_maperr. eapply rsafe_bind.
      * destruct reader_safe as (Hr & _ & _). eapply Hr; eauto.
      * intros v Hv. eapply rsafe_check; eauto.
    + intros v Hv. apply dreq_bind'; [|intros; apply dreq_refl].
      apply (IHf ((id, t) :: G) (id :: seen)); auto.
      * apply env_has_update; auto.
      * apply covers_update; auto.
      * apply dom_update. intros x Hi. apply Hd. right; auto.
  - intros. apply dreq_refl.
  - intros t t' k al al' H IHt Ha IHa G seen e i Hw Ht Hg Hc.
    cbn [read_alts wf_alts typed_alts] in *.
    apply andb_true_iff in Hw. destruct Hw as [H1 H2].
    apply andb_true_iff in Ht. destruct Ht as [Ht T3].
    apply andb_true_iff in Ht. destruct Ht as [Ht T2].
    apply andb_true_iff in Ht. destruct Ht as [_ T1].
    destruct i; [|eapply IHa; eauto].
    apply dreq_bind'; [eapply IHt; eauto|intros; apply dreq_refl].
Qed.

Lemma restated_cast c fs fs' : wf fs = true -> typed fs = true -> restated_fields fs fs' ->
  dreq (struct_cast c fs) (struct_cast c fs').
Proof.
  intros Hw Ht H. destruct (restated_read c) as (_ & X & _). unfold struct_cast.
  rewrite (restated_start _ _ H). apply (X _ _ H [] []); auto.
  - intros ? ? Hl; discriminate.
  - intros ? [].
  - apply dom_mk_env, default_fields_length.
Qed.

Lemma restated_run c fs fs' S alloc s : wf fs = true -> typed fs = true -> restated_fields fs fs' ->
  delivers S -> rrun S alloc (struct_cast c fs') s = rrun S alloc (struct_cast c fs) s.
Proof. intros Hw Ht H Hd. symmetry. apply dreq_rrun; auto. apply restated_cast; auto. Qed.

Lemma restated_mem c fs fs' bs : wf fs = true -> typed fs = true -> restated_fields fs fs' ->
  Forall byte_ok bs -> rmem (struct_cast c fs') bs = rmem (struct_cast c fs) bs.
Proof.
  intros Hw Ht H Hb. symmetry. apply dreq_rmem; auto. apply restated_cast; auto.
  eapply rall_impl; [| | | |apply (struct_cast_all c fs Hw)]; auto.
Qed.

Lemma restated_keeps fs fs' : restated_fields fs fs' -> wf fs = true -> typed fs = true ->
  wf fs' = true /\ typed fs' = true.
Proof.
  intros H Hw Ht. destruct restated_wf as (_ & X & _), restated_typed as (_ & Y & _).
  split; [apply (X _ _ H)|apply (Y _ _ H [] [])]; auto. apply trestated_nil.
Qed.

Lemma restated_valid c fs fs' vs : wf fs = true -> typed fs = true -> restated_fields fs fs' ->
  valid c fs' vs <-> valid c fs vs.
Proof.
  intros Hw Ht H. destruct (restated_keeps _ _ H Hw Ht) as [Hw' Ht'].
  destruct (restated_enc (c_wire c)) as (_ & He & _). destruct enc_bytes as (_ & Hb & _).
  split; intros Hv.
  - pose proof (read_complete c fs' vs [] Hw' Hv) as Hr. rewrite app_nil_r in Hr.
    rewrite (restated_mem c fs fs') in Hr; auto; [|eapply Hb; eauto].
    apply read_sound in Hr; auto; [tauto|]. eapply Hb; eauto.
  - pose proof (read_complete c fs vs [] Hw Hv) as Hr. rewrite app_nil_r in Hr.
    rewrite <- (restated_mem c fs fs') in Hr; auto; [|eapply Hb; eauto].
    apply read_sound in Hr; auto; [tauto|]. eapply Hb; eauto.
Qed.

(** ** Writing *)

Lemma restated_write c fs fs' vs : wf fs = true -> typed fs = true -> restated_fields fs fs' ->
  reversible c fs' = true -> valid c fs vs ->
  wmem (stream_cast c fs' vs) = (Ok tt, enc_fields (c_wire c) fs vs).
Proof.
  intros Hw Ht H Hr Hv. destruct (restated_keeps _ _ H Hw Ht) as [Hw' Ht'].
  rewrite rewrite_valid; auto.
  - destruct (restated_enc (c_wire c)) as (_ & He & _). rewrite (He _ _ H). auto.
  - apply (restated_valid c fs fs'); auto.
Qed.

Lemma explicit_restates :
  (forall t, restated_ty t (x_ty t)) /\ (forall fs, restated_fields fs (explicit fs)) /\
  (forall al, restated_alts al (x_alts al)).
Proof.
  assert (Hl : forall l, same_len l (x_len l)) by (intros []; constructor).
  assert (Hg : forall g, same_guide g (x_guide g)) by (intros []; constructor).
  apply schema_mutind; intros; cbn [x_ty explicit x_alts]; constructor; auto.
Qed.

Lemma explicit_free fs : sources (explicit fs) = [].
Proof.
  induction fs as [|id t k fs IH]; simpl; auto. rewrite IH, app_nil_r.
  destruct t as [| e [] b| | |gs sz [] b| |[]]; auto.
Qed.

Lemma explicit_pins t k : pin_exact (x_ty t) k = pin_exact t k.
Proof. destruct t; auto. Qed.

Lemma explicit_source c F t : source_ok c F (x_ty t) = true.
Proof. destruct t as [|e [] b| | |gs sz [] b| |[]]; auto. Qed.

Lemma explicit_reversible c :
  (forall t, pins_ty t = true -> reversible_ty c (x_ty t) = true) /\
  (forall fs, pins_fields fs = true -> forall F, reversible_in c F (explicit fs) = true) /\
  (forall al, pins_alts al = true -> reversible_alts c (x_alts al) = true).
Proof.
  apply schema_mutind; cbn [pins_ty pins_fields pins_alts x_ty explicit x_alts reversible_ty reversible_in reversible_alts];
    intros; auto.
  - rewrite explicit_source, explicit_pins. rewrite !andb_true_iff in *.
    rewrite orb_true_iff. intuition.
  - rewrite !andb_true_iff in *. intuition.
Qed.

Lemma explicit_write c fs vs : wf fs = true -> typed fs = true -> pins_fields fs = true ->
  valid c fs vs -> wmem (stream_cast c (explicit fs) vs) = (Ok tt, enc_fields (c_wire c) fs vs).
Proof.
  intros Hw Ht Hp Hv. apply restated_write; auto.
  - apply explicit_restates.
  - apply explicit_reversible; auto.
Qed.

Lemma explicit_keeps fs : wf fs = true -> typed fs = true ->
  restated_fields fs (explicit fs) /\ wf (explicit fs) = true /\ typed (explicit fs) = true /\
  sources (explicit fs) = [].
Proof.
  intros Hw Ht. assert (H : restated_fields fs (explicit fs)) by apply explicit_restates.
  destruct (restated_keeps _ _ H Hw Ht). auto using explicit_free.
Qed.
