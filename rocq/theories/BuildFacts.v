(** * Facts about structs made with [operator[]] *)
From Coq Require Import Lia.
From Verif Require Import BuildSpec BytesFacts ReadFacts StaticMore Rewrite ReadFinal WriteRel RTrip2 Safety.
Import ListNotations.

Scheme made_min := Minimality for made Sort Prop
with made_ty_min := Minimality for made_ty Sort Prop
with made_each_min := Minimality for made_each Sort Prop.
Combined Scheme made_mutind from made_min, made_ty_min, made_each_min.

(** ** What is made has the types of the schema *)

Lemma default_ct_ok t : ct_ok t (default_ct t).
Proof.
  assert (HP : forall w, 0 < pow256 w).
  { intros w. unfold pow256. apply Z.pow_pos_nonneg; lia. }
  induction t as [s|n t IH|n|w]; simpl.
  - destruct s as [w [|]|]; simpl; auto; pose proof (HP w).
    + destruct (pow256 w) eqn:E; try lia; auto.
    + destruct (pow256 w) eqn:E; try lia; auto.
  - split; [apply repeat_length|]. apply Forall_forall. intros x Hx. apply repeat_spec in Hx. subst. auto.
  - split; [rewrite repeat_length; auto|]. constructor; [exists 0; split; auto; unfold byte_ok; lia|].
    apply Forall_forall. intros x Hx. apply repeat_spec in Hx. subst. exists 0. split; auto. unfold byte_ok; lia.
  - split; auto. pose proof (HP w). lia.
Qed.

Lemma default_has :
  (forall t, inhabited_ty t = true -> has_ty t (default_ty t)) /\
  (forall fs, inhabited_fields fs = true -> has_fields fs (default_fields fs)) /\
  (forall al, inhabited_alts al = true -> al <> ANil -> has_alt al 0 (default_alts al)).
Proof.
  apply schema_mutind; simpl.
  - intros t n _. apply default_ct_ok.
  - constructor.
  - auto.
  - intros n fs IH H. split; [apply repeat_length|]. apply Forall_forall. intros x Hx.
    apply repeat_spec in Hx. subst. auto.
  - constructor.
  - auto.
  - intros g al IH H. destruct al; [discriminate|]. apply IH; auto. discriminate.
  - auto.
  - intros id t IHt k fs IHfs H. apply andb_true_iff in H. destruct H. auto.
  - congruence.
  - intros t IHt k al IHal H _. apply andb_true_iff in H. destruct H. auto.
Qed.

Lemma assign_has fs : forall vs id t k v, has_fields fs vs -> field_of fs id = Some (t, k) ->
  has_ty t v -> has_fields fs (assign fs vs id v).
Proof.
  induction fs as [|i t0 k0 fs IH]; intros [|w vs] id t k v Hv Hf Ht; simpl in *; try tauto; try discriminate.
  destruct (String.eqb i id).
  - injection Hf as -> ->. simpl. tauto.
  - simpl. split; [tauto|]. eapply IH; eauto. tauto.
Qed.

Lemma inhabited_of fs id t k : inhabited_fields fs = true -> field_of fs id = Some (t, k) ->
  inhabited_ty t = true.
Proof.
  induction fs as [|i t0 k0 fs IH]; simpl; intros H Hf; [discriminate|].
  apply andb_true_iff in H. destruct H. destruct (String.eqb i id); auto. injection Hf as -> ->. auto.
Qed.

Lemma inhabited_nth al : forall i t k, inhabited_alts al = true -> a_nth i al = Some (t, k) ->
  inhabited_ty t = true.
Proof.
  induction al as [|t0 k0 al IH]; intros [|i] t k H Hf; simpl in *; try discriminate;
    apply andb_true_iff in H; destruct H; eauto. injection Hf as -> ->. auto.
Qed.

Lemma has_nth al : forall i t k v, a_nth i al = Some (t, k) -> has_ty t v -> has_alt al i v.
Proof.
  induction al as [|t0 k0 al IH]; intros [|i] t k v Hf H; simpl in *; try discriminate; eauto.
  injection Hf as -> ->. auto.
Qed.

Lemma made_has_types (start : fields -> list val -> Prop) :
  (forall gs vs, start gs vs -> inhabited_fields gs = true -> has_fields gs vs) ->
  forall fs vs, made start fs vs -> inhabited_fields fs = true -> has_fields fs vs.
Proof.
  intros Hs.
  cut ((forall fs vs, made start fs vs -> inhabited_fields fs = true -> has_fields fs vs) /\
       (forall t v, made_ty start t v -> inhabited_ty t = true -> has_ty t v) /\
       (forall fs l, made_each start fs l -> inhabited_fields fs = true ->
          Forall (fun x => match x with VRec vs => has_fields fs vs | _ => False end) l)); [tauto|].
  apply made_mutind; simpl; auto.
  - intros fs vs id t k v _ IH _ Hf _ IHv Hi. eapply assign_has; eauto. apply IHv.
    eapply inhabited_of; eauto.
  - intros g al i t k v Ha _ IH Hi. eapply has_nth; eauto. apply IH.
    destruct al; [destruct i; discriminate|]. eapply inhabited_nth; eauto.
Qed.

Lemma made_has c fs vs : inhabited_fields fs = true -> made (fresh_or_read c) fs vs -> has_fields fs vs.
Proof.
  intros Hi H. refine (made_has_types (fresh_or_read c) _ fs vs H Hi). clear. intros gs ws [->|(Hw & bs & rest & Hb & H)] Hi.
  - apply default_has. auto.
  - destruct (read_sound c gs bs ws rest Hw Hb H) as [Hv _].
    destruct valid_has as (_ & Hh & _). eapply Hh. exact Hv.
Qed.

(** ** Everything that can be written can be made *)

Fixpoint blank_ty (t : fty) (v : val) {struct t} : val :=
  match t, v with
  | FStruct fs, VRec vs => VRec (blank_in fs fs vs)
  | FArrRec _ fs, VSeq l | FVecRec fs _ _ _, VSeq l =>
      VSeq (map (fun x => match x with VRec vs => VRec (blank_in fs fs vs) | _ => x end) l)
  | FMaybe b _ _, VSome v' => VSome (blank_ty b v')
  | FUnion _ al, VAlt i v' => VAlt i (blank_alts al i v')
  | _, _ => v
  end
with blank_in (F fs : fields) (vs : list val) {struct fs} : list val :=
  match fs, vs with
  | FCons id t k fs', v :: vs' =>
      (if overwritten F id t k then default_ty t else blank_ty t v) :: blank_in F fs' vs'
  | _, _ => []
  end
with blank_alts (al : alts) (i : nat) (v : val) {struct al} : val :=
  match al, i with
  | ANil, _ => v
  | ACons t _ _, O => blank_ty t v
  | ACons _ _ al', S i' => blank_alts al' i' v
  end.

Lemma blank_atomic :
  (forall t, atomic t = true -> forall v, blank_ty t v = v) /\
  (forall fs : fields, True) /\
  (forall al, atomic_alts al = true -> forall i v, blank_alts al i v = v).
Proof.
  apply schema_mutind; simpl; auto; try discriminate.
  - intros b IH p ids H v. destruct v; auto. rewrite IH; auto.
  - intros g al IH H v. destruct v; auto. rewrite IH; auto.
  - intros t IHt k al IHal H i v. apply andb_true_iff in H. destruct H. destruct i; auto.
Qed.

Lemma blank_same :
  (forall t v, has_ty t v -> free_ty t = true -> same_assignable_ty t v (blank_ty t v)) /\
  (forall fs F vs, has_fields fs vs -> free_fields fs = true ->
     same_assignable_in F fs vs (blank_in F fs vs)) /\
  (forall al i v, has_alt al i v -> free_alts al = true ->
     same_assignable_alts al i v (blank_alts al i v)).
Proof.
  assert (HK : forall t k v, (match k with CNone => true | _ => atomic t end) = true ->
    k = CNone \/ v = blank_ty t v).
  { intros t k v H. destruct k; auto; right; symmetry; apply blank_atomic; auto. }
  assert (HR : forall fs l,
    (forall F vs, has_fields fs vs -> free_fields fs = true ->
       same_assignable_in F fs vs (blank_in F fs vs)) -> free_fields fs = true ->
    Forall (fun x => match x with VRec vs => has_fields fs vs | _ => False end) l ->
    Forall2 (fun x x' =>
        match x, x' with
        | VRec vs, VRec vs' => same_assignable_in fs fs vs vs'
        | _, _ => x = x'
        end) l (map (fun x => match x with VRec vs => VRec (blank_in fs fs vs) | _ => x end) l)).
  { intros fs l IH Hf H. induction H as [|x l Hx H IHl]; simpl; constructor; auto.
    destruct x; try tauto. auto. }
  apply schema_mutind.
  - intros t n v _ _. simpl. reflexivity.
  - intros elt l b v _ _. simpl. reflexivity.
  - intros fs IH v Hv Hf. destruct v; simpl in *; try tauto. auto.
  - intros n fs IH v Hv Hf. destruct v; simpl in *; try tauto. destruct Hv. auto.
  - intros fs IH sz l b v Hv Hf. destruct v; simpl in *; try tauto. auto.
  - intros b IH p ids v Hv Hf. destruct v; simpl in *; try tauto. auto.
  - intros g al IH v Hv Hf. destruct v; simpl in *; try tauto. auto.
  - intros F [|v vs]; simpl; tauto.
  - intros id t IHt k fs IHfs F [|v vs] Hv Hf; simpl in *; [tauto|].
    rewrite !andb_true_iff in Hf. destruct Hf as ((H1 & H2) & H3). destruct Hv as [Hv Hvs].
    split; [|auto]. intros ->. split; auto.
  - intros i v [].
  - intros t IHt k al IHal [|i] v Hv Hf; simpl in *; rewrite !andb_true_iff in Hf;
      destruct Hf as ((H1 & H2) & H3); auto.
Qed.

(** The fields [fs] of a list [F], one by one. *)
Fixpoint slots (F fs : fields) (ws : list val) : Prop :=
  match fs, ws with
  | FNil, [] => True
  | FCons id t k fs', w :: ws' =>
      (if overwritten F id t k then w = default_ty t else made_ty fresh t w) /\ slots F fs' ws'
  | _, _ => False
  end.

Lemma assign_at pre : forall id t k post wpre d rest w, ~ In id (f_ids pre) ->
  length wpre = f_len pre ->
  assign (f_app pre (FCons id t k post)) (wpre ++ d :: rest) id w = wpre ++ w :: rest.
Proof.
  induction pre as [|i t0 k0 pre IH]; intros id t k post [|x wpre] d rest w Hn L; simpl in *; try discriminate.
  - rewrite String.eqb_refl. auto.
  - destruct (String.eqb_spec i id); [tauto|]. rewrite IH; auto.
Qed.

Lemma field_of_app pre : forall id t k post, ~ In id (f_ids pre) ->
  field_of (f_app pre (FCons id t k post)) id = Some (t, k).
Proof.
  induction pre as [|i t0 k0 pre IH]; intros id t k post Hn; simpl in *.
  - rewrite String.eqb_refl. auto.
  - destruct (String.eqb_spec i id); [tauto|]. auto.
Qed.

Definition fits_tables (gs : fields) : Prop :=
  (f_len gs <= 256)%nat /\ (length (lengths gs) <= 64)%nat /\
  (length (discriminants gs) <= 64)%nat /\ ~ In String.EmptyString (f_ids gs).

Lemma slots_made F : wf F = true -> typed F = true -> fits_tables F ->
  forall post pre wpre wpost, F = f_app pre post -> length wpre = f_len pre ->
  slots F post wpost -> made fresh F (wpre ++ default_fields post) ->
  made fresh F (wpre ++ wpost).
Proof.
  intros Hw Ht (T1 & T2 & T3 & T4). destruct (wf_fields_ids _ _ Hw) as [Hn _].
  induction post as [|id t k post IH]; intros pre wpre wpost E L Hs Hm; destruct wpost as [|w wpost];
    simpl in Hs; try tauto.
  destruct Hs as [Hw1 Hs].
  assert (Hnin : ~ In id (f_ids pre)).
  { rewrite E in Hn. clear - Hn. induction pre as [|i t0 k0 pre IH]; simpl in *; [tauto|].
    inversion Hn; subst. intros [->|H]; [|tauto]. apply H1.
    clear. induction pre; simpl; auto. }
  replace (wpre ++ w :: wpost) with ((wpre ++ [w]) ++ wpost) by (rewrite <- app_assoc; auto).
  apply (IH (f_app pre (FCons id t k FNil))).
  - rewrite E. clear. induction pre; simpl; auto. f_equal. auto.
  - rewrite app_length, L. clear. induction pre; simpl in *; auto; try lia.
  - auto.
  - rewrite <- app_assoc. simpl. simpl in Hm. destruct (overwritten F id t k) eqn:Eo; [subst; auto|].
    erewrite <- (assign_at pre id t k post wpre (default_ty t) _ w Hnin L), <- E.
    assert (Hfo : field_of F id = Some (t, k)) by (rewrite E; apply field_of_app; auto).
    eapply made_assign; eauto.
    apply policy_mutable; auto; [|eauto].
    intros ->. apply T4. rewrite E. clear. induction pre; simpl; auto.
Qed.

Lemma blank_made :
  (forall t v seen G, wf_ty seen t = true -> typed_ty G t = true ->
     (forall gs, In gs (lists_ty t) -> fits_tables gs) -> has_ty t v ->
     made_ty fresh t (blank_ty t v)) /\
  (forall fs F vs seen G, wf_fields seen fs = true -> typed_fields G fs = true ->
     (forall gs, In gs (lists_fields fs) -> fits_tables gs) -> has_fields fs vs ->
     slots F fs (blank_in F fs vs)) /\
  (forall al i v seen G, wf_alts seen al = true -> typed_alts G al = true ->
     (forall gs, In gs (lists_alts al) -> fits_tables gs) -> has_alt al i v ->
     exists t k, a_nth i al = Some (t, k) /\ made_ty fresh t (blank_alts al i v)).
Proof.
  assert (HR : forall fs vs,
    (forall F vs seen G, wf_fields seen fs = true -> typed_fields G fs = true ->
      (forall gs, In gs (lists_fields fs) -> fits_tables gs) -> has_fields fs vs ->
      slots F fs (blank_in F fs vs)) ->
    wf fs = true -> typed fs = true -> (forall gs, In gs (fs :: lists_fields fs) -> fits_tables gs) ->
    has_fields fs vs -> made fresh fs (blank_in fs fs vs)).
  { intros fs vs IH Hw Ht Hl Hv.
    apply (slots_made fs Hw Ht (Hl _ (or_introl eq_refl)) fs FNil [] (blank_in fs fs vs)); auto.
    - eapply IH; eauto. intros gs Hg. apply Hl. right. auto.
    - apply made_start. reflexivity. }
  assert (HE : forall fs l,
    (forall vs, has_fields fs vs -> made fresh fs (blank_in fs fs vs)) ->
    Forall (fun x => match x with VRec vs => has_fields fs vs | _ => False end) l ->
    made_each fresh fs (map (fun x => match x with VRec vs => VRec (blank_in fs fs vs) | _ => x end) l)).
  { intros fs l IH H. induction H as [|x l Hx H IHl]; simpl; [constructor|].
    destruct x; try tauto. constructor; auto. }
  apply schema_mutind.
  - intros t n v seen G _ _ _ H. simpl in *. constructor. auto.
  - intros elt l b v seen G _ _ _ H. destruct v; simpl in *; try tauto. constructor. auto.
  - intros fs IH v seen G Hw Ht Hl H. destruct v; simpl in *; try tauto. constructor. auto.
  - intros n fs IH v seen G Hw Ht Hl H. destruct v; simpl in *; try tauto. destruct H as [L H].
    constructor; [rewrite map_length; auto|]. apply HE; auto.
  - intros fs IH sz l b v seen G Hw Ht Hl H. destruct v; simpl in *; try tauto.
    rewrite !andb_true_iff in Hw. rewrite !andb_true_iff in Ht. constructor. apply HE; auto. intros vs Hvs.
    destruct Hw as [[Hw _] _], Ht as [Ht _]. apply HR; auto.
  - intros b IH p ids v seen G Hw Ht Hl H. destruct v; simpl in *; try tauto.
    + constructor.
    + rewrite !andb_true_iff in Hw. rewrite !andb_true_iff in Ht. constructor. destruct Hw, Ht. eauto.
  - intros g al IH v seen G Hw Ht Hl H. destruct v; simpl in *; try tauto.
    rewrite !andb_true_iff in Hw. rewrite !andb_true_iff in Ht. destruct Hw, Ht.
    destruct (IH i v seen G) as (t & k & Ha & Hm); auto. econstructor; eauto.
  - intros F [|v vs]; simpl; tauto.
  - intros id t IHt k fs IHfs F [|v vs] seen G Hw Ht Hl H; simpl in *; try tauto.
    rewrite !andb_true_iff in Hw. rewrite !andb_true_iff in Ht. destruct Hw as ((W1 & W2) & W3), Ht as ((T1 & T2) & T3), H as [H1 H2].
    split.
    + destruct (overwritten F id t k); auto. eapply IHt; eauto. intros. apply Hl. apply in_or_app. auto.
    + eapply IHfs; eauto. intros. apply Hl. apply in_or_app. auto.
  - intros i v seen G _ _ _ [].
  - intros t IHt k al IHal i v seen G Hw Ht Hl H; simpl in *.
    rewrite !andb_true_iff in Hw. rewrite !andb_true_iff in Ht. destruct Hw as [W1 W2], Ht as (((T0 & T1) & T2) & T3).
    destruct i as [|i].
    + exists t, k. split; auto. eapply IHt; eauto. intros. apply Hl. apply in_or_app. auto.
    + eapply IHal; eauto. intros. apply Hl. apply in_or_app. auto.
Qed.

Lemma made_same fs vs : wf fs = true -> typed fs = true -> free_fields fs = true ->
  within_tables fs -> has_fields fs vs ->
  exists ws, made fresh fs ws /\ same_assignable fs vs ws.
Proof.
  intros Hw Ht Hf Hl Hv. exists (blank_in fs fs vs). split.
  - apply (slots_made fs Hw Ht (Hl _ (or_introl eq_refl)) fs FNil [] (blank_in fs fs vs)); auto.
    + destruct blank_made as (_ & H & _). eapply H; eauto. intros gs Hg. apply Hl. right. auto.
    + apply made_start. reflexivity.
  - destruct blank_same as (_ & H & _). apply H; auto.
Qed.

Lemma made_writes c fs vs : wf fs = true -> typed fs = true -> steady fs = true ->
  free_fields fs = true -> within_tables fs -> has_fields fs vs ->
  exists ws, made fresh fs ws /\ stream_cast c fs ws = stream_cast c fs vs.
Proof.
  intros Hw Ht Hs Hf Hl Hv. destruct (made_same fs vs) as (ws & Hm & Ha); auto.
  exists ws. split; auto. symmetry. apply same_assignable_write; auto.
Qed.

Lemma made_valid c fs vs : wf fs = true -> typed fs = true -> steady fs = true ->
  free_fields fs = true -> reversible c fs = true -> within_tables fs -> valid c fs vs ->
  exists ws, made fresh fs ws /\
    wmem (stream_cast c fs ws) = (Ok tt, enc_fields (c_wire c) fs vs).
Proof.
  intros Hw Ht Hs Hf Hr Hl Hv.
  destruct (made_writes c fs vs) as (ws & Hm & E); auto.
  { destruct valid_has as (_ & H & _). eapply H. exact Hv. }
  exists ws. split; auto. rewrite E. apply rewrite_valid; auto.
Qed.

(** ** Editing *)

Lemma lookup_assign fs : forall vs id id' v, has_fields fs vs -> In id (f_ids fs) ->
  lookup (mk_env fs (assign fs vs id v)) id' =
  if String.eqb id id' then Some v else lookup (mk_env fs vs) id'.
Proof.
  induction fs as [|i t k fs IH]; intros [|w vs] id id' v Hv Hin; simpl in *; try tauto.
  destruct (String.eqb_spec i id) as [->|Hne]; simpl.
  - destruct (String.eqb_spec id id'); auto.
  - destruct Hin as [->|Hin]; [tauto|].
    destruct (String.eqb_spec i id') as [->|Hne'].
    + destruct (String.eqb_spec id id') as [->|]; [tauto|auto].
    + apply IH; tauto.
Qed.

Lemma same_at F fs : forall vs ws id t k v, same_assignable_in F fs vs ws ->
  field_of fs id = Some (t, k) -> overwritten F id t k = false ->
  lookup (mk_env fs vs) id = Some v ->
  exists w, lookup (mk_env fs ws) id = Some w /\ same_assignable_ty t v w.
Proof.
  induction fs as [|i t0 k0 fs IH]; intros [|x vs] [|y ws] id t k v Hs Hf Ho Hl; simpl in *;
    try discriminate.
  destruct Hs as [H1 H2]. destruct (String.eqb i id) eqn:E.
  - apply String.eqb_eq in E. subst i. injection Hf as -> ->. injection Hl as ->. exists y. split; auto.
    apply H1. auto.
  - eapply IH; eauto.
Qed.

Lemma lookup_has fs : forall vs id, has_fields fs vs -> In id (f_ids fs) ->
  exists v, lookup (mk_env fs vs) id = Some v.
Proof.
  induction fs as [|i t k fs IH]; intros [|w vs] id Hv Hin; simpl in *; try tauto.
  destruct (String.eqb_spec i id); [eauto|]. destruct Hin; [tauto|]. apply IH; tauto.
Qed.

Lemma field_of_in fs id t k : field_of fs id = Some (t, k) -> In id (f_ids fs).
Proof.
  induction fs as [|i t0 k0 fs IH]; simpl; [discriminate|].
  destruct (String.eqb_spec i id); auto.
Qed.

Lemma edit c fs vs id t k v out :
  wf fs = true -> typed fs = true -> clean_fields c fs = true -> steady fs = true ->
  free_fields fs = true -> within_tables fs -> has_fields fs vs ->
  op_index false fs id = MutableRef -> field_of fs id = Some (t, k) -> has_ty t v ->
  sized_fields c fs (emitted c fs (assign fs vs id v)) ->
  wmem (stream_cast c fs (assign fs vs id v)) = (Ok tt, out) ->
  exists ws, rmem (struct_cast c fs) out = (Ok ws, []) /\
    (exists w, lookup (mk_env fs ws) id = Some w /\ same_assignable_ty t v w) /\
    forall id' t' k', id' <> id -> op_index false fs id' = MutableRef ->
      field_of fs id' = Some (t', k') ->
      exists w w', lookup (mk_env fs vs) id' = Some w /\ lookup (mk_env fs ws) id' = Some w' /\
        same_assignable_ty t' w w'.
Proof.
  intros Hw Ht Hc Hs Hf Hl Hv Hm Hfo Hty Hz Hout.
  pose proof (assign_has _ _ _ _ _ _ Hv Hfo Hty) as Hv'.
  destruct (round_trip_steady c fs (assign fs vs id v) out [] Hw Ht Hv' Hc Hs Hf Hz Hout) as [Hr Hsa].
  rewrite app_nil_r in Hr. exists (emitted c fs (assign fs vs id v)). split; auto.
  destruct (Hl _ (or_introl eq_refl)) as (T1 & T2 & T3 & T4).
  assert (Hmut : forall i t' k', op_index false fs i = MutableRef -> field_of fs i = Some (t', k') ->
     overwritten fs i t' k' = false).
  { intros i t' k' Hi Hfi. pose proof (field_of_in _ _ _ _ Hfi) as Hin.
    apply policy_mutable in Hi; auto; [|intros ->; auto].
    destruct Hi as (t2 & k2 & E2 & Ho). rewrite E2 in Hfi. injection Hfi as -> ->. auto. }
  pose proof (field_of_in _ _ _ _ Hfo) as Hin. split.
  - eapply same_at; eauto. rewrite lookup_assign by auto. rewrite String.eqb_refl. auto.
  - intros id' t' k' Hne Hm' Hf'. destruct (lookup_has fs vs id' Hv (field_of_in _ _ _ _ Hf')) as [w Hlw].
    destruct (same_at fs fs (assign fs vs id v) (emitted c fs (assign fs vs id v)) id' t' k' w) as (w' & H1 & H2); eauto.
    rewrite lookup_assign by auto. destruct (String.eqb_spec id id'); [congruence|auto].
Qed.

(** ** What cannot be assigned stays *)

Lemma lookup_assign_other fs : forall vs id id' v, id <> id' ->
  lookup (mk_env fs (assign fs vs id v)) id' = lookup (mk_env fs vs) id'.
Proof.
  induction fs as [|i t k fs IH]; intros [|w vs] id id' v Hne; simpl; auto.
  destruct (String.eqb_spec i id) as [->|Hn]; simpl.
  - destruct (String.eqb_spec id id'); [tauto|auto].
  - destruct (String.eqb i id'); auto.
Qed.

Lemma made_keeps (start : fields -> list val -> Prop) fs vs : wf fs = true -> typed fs = true ->
  (f_len fs <= 256)%nat -> (length (lengths fs) <= 64)%nat -> (length (discriminants fs) <= 64)%nat ->
  ~ In String.EmptyString (f_ids fs) -> made start fs vs ->
  exists vs0, start fs vs0 /\
    forall id t k, field_of fs id = Some (t, k) -> overwritten fs id t k = true ->
      lookup (mk_env fs vs) id = lookup (mk_env fs vs0) id.
Proof.
  intros Hw Ht T1 T2 T3 T4 H. induction H as [fs vs H|fs vs id t k v H IH Hm Hf Hv]; [eauto|].
  destruct (IH Hw Ht T1 T2 T3 T4) as (vs0 & H0 & H1). exists vs0. split; auto.
  intros id' t' k' Hf' Ho. rewrite <- (H1 id' t' k' Hf' Ho). apply lookup_assign_other.
  intros ->. apply policy_mutable in Hm; auto.
  - destruct Hm as (t2 & k2 & E & Ho'). rewrite E in Hf'. injection Hf' as -> ->. congruence.
  - intros ->. apply T4. eapply field_of_in. eauto.
Qed.

(** ** Fresh structs *)

Lemma default_zero t : Forall (eq 0) (enc_ct Little t (default_ct t)).
Proof.
  assert (Z0 : forall w, Forall (eq 0) (le_enc w 0)).
  { induction w; simpl; constructor; auto. }
  assert (ZS : forall s, Forall (eq 0) (le_enc (ssize s) (sc_bits s 0))).
  { intros s. unfold sc_bits. destruct s as [w sg|]; [|apply Z0].
    rewrite Z.mod_0_l by (unfold pow256; apply Z.pow_nonzero; lia). apply Z0. }
  induction t as [s|n t IH|n|w]; cbn [default_ct enc_ct wire_scalar]; try apply ZS.
  - induction n; simpl; auto. apply Forall_app. auto.
  - apply Forall_forall. intros x Hx. apply in_map_iff in Hx. destruct Hx as (y & <- & Hy).
    apply repeat_spec in Hy. subst. auto.
Qed.

Lemma all_zero_iff t v : ct_wf t = true -> (all_zero t v <-> v = default_ct t).
Proof.
  intros Hw. split.
  - intros [H1 H2].
    assert (E : forall a b, Forall (eq 0) a -> Forall (eq 0) b -> length a = length b -> a = b).
    { induction a as [|x a IH]; intros [|y b] Ha Hb; simpl; intros L; auto; try discriminate.
      inversion Ha; inversion Hb; subst. f_equal. apply IH; auto. }
    pose proof (default_ct_ok t) as D1. pose proof (default_zero t) as D2.
    pose proof (enc_ct_length Little t) as L.
    assert (X : enc_ct Little t v = enc_ct Little t (default_ct t)).
    { apply E; auto. rewrite !L; auto. }
    pose (c := mkCfg Little Little false 8 0).
    assert (Y : load c t (enc_ct Little t v) = Some v).
    { apply load_iff; auto; try (apply enc_ct_bytes; auto). }
    assert (Y' : load c t (enc_ct Little t v) = Some (default_ct t)).
    { apply load_iff; auto; try (apply enc_ct_bytes; auto). }
    congruence.
  - intros ->. split; [apply default_ct_ok|apply default_zero].
Qed.

Lemma zero_iff :
  (forall t, (forall seen, wf_ty seen t = true -> inhabited_ty t = true ->
              forall v, zero_ty t v <-> v = default_ty t)) /\
  (forall fs, forall seen, wf_fields seen fs = true -> inhabited_fields fs = true ->
              forall vs, zero_fields fs vs <-> vs = default_fields fs) /\
  (forall al, forall seen, wf_alts seen al = true -> inhabited_alts al = true ->
              forall t k al', al = ACons t k al' -> forall v, zero_ty t v <-> v = default_ty t).
Proof.
  apply schema_mutind.
  - intros t n seen Hw _ v. cbn [wf_ty zero_ty default_ty] in *. apply andb_true_iff in Hw.
    apply all_zero_iff. tauto.
  - intros. simpl. tauto.
  - intros gs IH seen Hw Hi v. cbn [wf_ty zero_ty default_ty inhabited_ty] in *. split.
    + intros (ws & -> & H). apply (IH [] Hw Hi) in H. congruence.
    + intros ->. eexists. split; eauto. apply (IH [] Hw Hi). auto.
  - intros n gs IH seen Hw Hi v. cbn [wf_ty zero_ty default_ty inhabited_ty] in *.
    pose proof (IH [] Hw Hi) as H. clear -H. split.
    + intros (xs & -> & <- & F). f_equal. induction F as [|x xs (ws & -> & Hx) F IHF]; simpl; auto.
      apply H in Hx. congruence.
    + intros ->. eexists. split; eauto. split; [apply repeat_length|].
      apply Forall_forall. intros x Hx. apply repeat_spec in Hx. subst. eexists. split; eauto. apply H. auto.
  - intros. simpl. tauto.
  - intros. simpl. tauto.
  - intros g al IH seen Hw Hi v. cbn [wf_ty] in Hw. apply andb_true_iff in Hw. destruct Hw as [_ Hw].
    destruct al as [|t k al]; [discriminate|]. cbn [zero_ty default_ty default_alts].
    cbn [inhabited_ty] in Hi. specialize (IH seen Hw Hi t k al eq_refl). split.
    + intros (v' & -> & H). apply IH in H. congruence.
    + intros ->. eexists. split; eauto. apply IH. auto.
  - intros seen _ _ vs. destruct vs; simpl; split; intros; auto; try tauto; discriminate.
  - intros id t IHt k fs IHfs seen Hw Hi vs.
    cbn [wf_fields inhabited_fields zero_fields default_fields] in *.
    apply andb_true_iff in Hw. destruct Hw as [Hw W3]. apply andb_true_iff in Hw. destruct Hw as [W1 W2].
    apply andb_true_iff in Hi. destruct Hi as [I1 I2].
    destruct vs as [|v vs]; [split; [tauto|discriminate]|].
    rewrite (IHt _ W2 I1), (IHfs _ W3 I2). split; [intros [-> ->]; auto|]. intros E. inversion E; auto.
  - intros seen _ _ t k al E. discriminate.
  - intros t IHt k al IHal seen Hw Hi t' k' al' E. inversion E; subst.
    cbn [wf_alts inhabited_alts] in *. apply andb_true_iff in Hw. destruct Hw as [W1 W2].
    apply andb_true_iff in Hi. destruct Hi as [I1 I2]. apply (IHt _ W1 I1).
Qed.

Lemma fresh_zero fs vs : wf fs = true -> inhabited_fields fs = true ->
  (fresh fs vs <-> zero_fields fs vs).
Proof.
  intros Hw Hi. destruct zero_iff as (_ & H & _). unfold fresh. symmetry. apply (H fs [] Hw Hi).
Qed.
