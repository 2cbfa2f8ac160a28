(** * Accepted schemas and well-formed schemas: lemmas *)
From Coq Require Import String Permutation ZifyBool ZifyNat.
From Verif Require Import Static StaticSpec Typing BytesFacts ReadFacts WriteLoc StaticFacts StaticDeps.
Local Open Scope list_scope.

Lemma no_variance_plain t : no_variance t = true <-> plain_field t.
Proof. destruct t; simpl; split; auto; discriminate || contradiction. Qed.

Lemma accepted_alts_plain szw al : accepted_alts szw al = true -> Forall plain_field (a_types al).
Proof.
  induction al as [|t k al IH]; simpl; intros H; constructor; rewrite !Bool.andb_true_iff in H.
  - apply no_variance_plain. tauto.
  - apply IH. tauto.
Qed.

Lemma accepted_fields_in szw fs id t k : accepted_fields szw fs = true -> In (id, t, k) (f_list fs) ->
  accepted_ty szw k t = true.
Proof.
  induction fs as [|i u c fs IH]; simpl; [tauto|]. rewrite Bool.andb_true_iff.
  intros (H1 & H2) [E|E]; [injection E as -> -> ->; auto|auto].
Qed.

Lemma accepted_nest_plain szw fs : accepted_fields szw fs = true -> all_nest_plain fs.
Proof.
  intros H id t k Hin. apply (accepted_fields_in _ _ _ _ _ H) in Hin. destruct t; simpl in *; auto.
  - rewrite Bool.andb_true_iff in Hin. apply no_variance_plain. tauto.
  - rewrite Bool.andb_true_iff in Hin. eapply accepted_alts_plain. apply Hin.
Qed.

(** Every list inside. *)
Lemma accepted_lists szw :
  (forall t k, accepted_ty szw k t = true -> forall gs, In gs (lists_ty t) ->
     list_accepted gs = true /\ accepted_fields szw gs = true) /\
  (forall fs, accepted_fields szw fs = true -> forall gs, In gs (lists_fields fs) ->
     list_accepted gs = true /\ accepted_fields szw gs = true) /\
  (forall al, accepted_alts szw al = true -> forall gs, In gs (lists_alts al) ->
     list_accepted gs = true /\ accepted_fields szw gs = true).
Proof.
  apply schema_mutind; simpl; try (intros; contradiction).
  - intros fs IH k H gs. rewrite Bool.andb_true_iff in H. destruct H. intros [<-|Hin]; [auto|eauto].
  - intros n fs IH k H gs. rewrite Bool.andb_true_iff in H. destruct H. intros [<-|Hin]; [auto|eauto].
  - intros fs IH r l b k H gs. rewrite Bool.andb_true_iff in H. destruct H. intros [<-|Hin]; [auto|eauto].
  - intros b IH p ids k H. rewrite Bool.andb_true_iff in H. destruct H. eauto.
  - intros g al IH k H. rewrite Bool.andb_true_iff in H. destruct H. eauto.
  - intros id t IH k fs IHf H gs. rewrite Bool.andb_true_iff in H. destruct H.
    rewrite in_app_iff. intros [Hin|Hin]; eauto.
  - intros t IH k al IHa H gs. rewrite !Bool.andb_true_iff in H. destruct H as ((? & ?) & ?).
    rewrite in_app_iff. intros [Hin|Hin]; eauto.
Qed.

Lemma accepted_all szw fs gs : accepted szw fs = true -> In gs (lists fs) ->
  list_accepted gs = true /\ accepted_fields szw gs = true.
Proof.
  unfold accepted, lists. rewrite Bool.andb_true_iff. intros (H1 & H2) [<-|Hin]; auto.
  destruct (accepted_lists szw) as (_ & H & _). eauto.
Qed.

Lemma accepted_nodup_all szw fs gs : accepted szw fs = true -> In gs (lists fs) -> NoDup (f_ids gs).
Proof. intros H Hin. apply accepted_nodup. eapply accepted_all; eauto. Qed.

Lemma values_unique_iff szw g : values_unique szw g = true <-> NoDup (match_values_of szw g).
Proof.
  unfold values_unique.
  destruct (unique_iff Z.eqb Z.eqb_eq (match_values szw g)) as (b & E & K). rewrite E, K.
  assert (match_values szw g = match_values_of szw g) as -> by (destruct g; auto). tauto.
Qed.

Lemma switches_in gs g : In g (switches gs) <-> exists id al k, In (id, FUnion g al, k) (f_list gs).
Proof.
  unfold switches. rewrite in_flat_map. split.
  - intros ([[id t] k] & Hin & H). simpl in H. destruct t; simpl in H; try contradiction.
    destruct H as [<-|[]]. eauto.
  - intros (id & al & k & H). exists (id, FUnion g al, k). simpl. auto.
Qed.

Lemma accepted_values szw fs gs g : accepted szw fs = true -> In gs (lists fs) -> In g (switches gs) ->
  NoDup (match_values_of szw g).
Proof.
  intros H Hin Hg. apply (accepted_all _ _ _ H) in Hin. destruct Hin as (_ & HA).
  apply switches_in in Hg. destruct Hg as (id & al & k & Hg).
  apply (accepted_fields_in _ _ _ _ _ HA) in Hg. simpl in Hg. rewrite Bool.andb_true_iff in Hg.
  apply values_unique_iff. tauto.
Qed.

Lemma accepted_only szw fs gs i id t k d : accepted szw fs = true -> In gs (lists fs) ->
  nth_error (f_list gs) i = Some (id, t, k) -> In d (uses t) ->
  id = EmptyString \/ d = EmptyString \/ d = id \/ In d (firstn i (f_ids gs)).
Proof.
  intros H Hin. apply (accepted_all _ _ _ H) in Hin. destruct Hin as (H1 & H2).
  apply accepted_list_only; auto. eapply accepted_nest_plain; eauto.
Qed.

(** ** Well-formed schemas *)

Lemma memb_iff id l : memb id l = true <-> In id l.
Proof. apply existsb_eqb_in. Qed.

Lemma all_in_iff ids seen : all_in ids seen = true <-> forall d, In d ids -> In d seen.
Proof.
  unfold all_in. rewrite forallb_forall. split; intros H d Hd; [apply memb_iff; auto|].
  apply memb_iff. auto.
Qed.

Lemma len_wf_iff seen l : len_wf seen l = true <-> forall d, In d (names_of l) -> In d seen.
Proof.
  destruct l as [id|f ids]; simpl; [|apply all_in_iff]. rewrite memb_iff. split.
  - intros H d [<-|[]]. auto.
  - intros H. apply H. auto.
Qed.

Lemma guide_wf_iff seen g al : guide_wf seen g = true <-> forall d, In d (switch_uses (FUnion g al)) -> In d seen.
Proof.
  destruct g as [id s cs|f r ids cs|brs]; simpl; [|apply all_in_iff|].
  - rewrite memb_iff. split; [intros H d [<-|[]]; auto|intros H; apply H; auto].
  - rewrite forallb_forall. split.
    + intros H d Hd. apply in_flat_map in Hd. destruct Hd as (b & Hb & Hd).
      apply H in Hb. eapply (proj1 (all_in_iff _ _)); eauto.
    + intros H b Hb. apply all_in_iff. intros d Hd. apply H. apply in_flat_map. eauto.
Qed.

Definition good_list (gs : fields) : Prop := NoDup (f_ids gs) /\ uses_earlier gs.

(** Uses of everything outside nested records. *)
Fixpoint deep_uses (t : fty) : list ident :=
  match t with
  | FVar _ l _ | FVecRec _ _ l _ => names_of l
  | FMaybe b _ ids => ids ++ deep_uses b
  | FUnion g al => switch_uses (FUnion g al) ++ deep_uses_alts al
  | _ => []
  end
with deep_uses_alts (al : alts) : list ident :=
  match al with ANil => [] | ACons t _ al' => deep_uses t ++ deep_uses_alts al' end.

Lemma plain_deep t : plain_field t -> deep_uses t = len_uses t.
Proof. destruct t; simpl; auto; contradiction. Qed.

Lemma plain_deep_alts al : Forall plain_field (a_types al) -> deep_uses_alts al = len_uses_alts al.
Proof.
  induction al as [|t k al IH]; simpl; auto. intros H. inversion H; subst.
  rewrite plain_deep, IH; auto.
Qed.

Lemma deep_uses_iff t d : nests_plain t -> (In d (deep_uses t) <-> In d (uses t)).
Proof.
  unfold uses. destruct t; simpl; rewrite ?app_nil_r; try tauto; intros H.
  - rewrite plain_deep by auto. rewrite !in_app_iff. tauto.
  - rewrite plain_deep_alts by auto. rewrite !in_app_iff. tauto.
Qed.

Fixpoint wnested_ty (t : fty) : Prop :=
  match t with
  | FStruct fs | FArrRec _ fs | FVecRec fs _ _ _ => wnested_fields fs
  | FMaybe b _ _ => plain_field b /\ wnested_ty b
  | FUnion _ al => Forall plain_field (a_types al) /\ wnested_alts al
  | _ => True
  end
with wnested_fields (fs : fields) : Prop :=
  match fs with FNil => True | FCons _ t _ fs' => wnested_ty t /\ wnested_fields fs' end
with wnested_alts (al : alts) : Prop :=
  match al with ANil => True | ACons t _ al' => wnested_ty t /\ wnested_alts al' end.

Lemma wnested_in fs id t k : wnested_fields fs -> In (id, t, k) (f_list fs) -> wnested_ty t.
Proof.
  induction fs as [|i u c fs IH]; simpl; [tauto|].
  intros (H1 & H2) [E|E]; [injection E as -> -> ->; auto|auto].
Qed.

Lemma wnested_plain t : wnested_ty t -> nests_plain t.
Proof. destruct t; simpl; tauto. Qed.

Lemma wnested_fields_plain fs : wnested_fields fs -> all_nest_plain fs.
Proof. intros H id t k Hin. apply wnested_plain. eapply wnested_in; eauto. Qed.

Lemma accepted_wnested szw :
  (forall t k, accepted_ty szw k t = true -> wnested_ty t) /\
  (forall fs, accepted_fields szw fs = true -> wnested_fields fs) /\
  (forall al, accepted_alts szw al = true -> wnested_alts al).
Proof.
  apply schema_mutind; simpl; auto.
  - intros fs IH k H. rewrite Bool.andb_true_iff in H. tauto.
  - intros n fs IH k H. rewrite Bool.andb_true_iff in H. tauto.
  - intros fs IH r l b k H. rewrite Bool.andb_true_iff in H. tauto.
  - intros b IH p ids k H. rewrite Bool.andb_true_iff in H. split; [apply no_variance_plain; tauto|].
    apply (IH CNone). tauto.
  - intros g al IH k H. rewrite Bool.andb_true_iff in H. split; [|tauto].
    eapply accepted_alts_plain. apply H.
  - intros id t IH k fs IHf H. rewrite Bool.andb_true_iff in H. split; [eapply IH|tauto]. apply H.
  - intros t IH k al IHa H. rewrite !Bool.andb_true_iff in H. split; [eapply IH|tauto]. apply H.
Qed.

Lemma typed_wnested :
  (forall t G, typed_ty G t = true -> wnested_ty t) /\
  (forall fs G, typed_fields G fs = true -> wnested_fields fs) /\
  (forall al G, typed_alts G al = true -> wnested_alts al /\ Forall plain_field (a_types al)).
Proof.
  assert (forall t, flat t = true -> plain_field t) as HF.
  { intros t. destruct t; simpl; auto; discriminate. }
  apply schema_mutind; simpl; auto.
  - intros fs IH G H. eauto.
  - intros n fs IH G H. eauto.
  - intros fs IH r l b G H. rewrite Bool.andb_true_iff in H. destruct H. eauto.
  - intros b IH p ids G H. rewrite Bool.andb_true_iff in H. destruct H. split; eauto.
  - intros g al IH G H. rewrite Bool.andb_true_iff in H. destruct H as (_ & H). apply IH in H. tauto.
  - intros id t IH k fs IHf G H. rewrite !Bool.andb_true_iff in H. destruct H as ((? & ?) & ?). split; eauto.
  - intros t IH k al IHa G H. rewrite !Bool.andb_true_iff in H. destruct H as (((? & ?) & ?) & H).
    apply IHa in H. destruct H. split; [split; eauto|constructor; auto].
Qed.

(** Sizes, unique names and earlier dependencies make a schema well formed... *)
Lemma wf_intro :
  (forall t seen, wnested_ty t -> sizes_ty t = true -> (forall d, In d (deep_uses t) -> In d seen) ->
     (forall gs, In gs (lists_ty t) -> good_list gs) -> wf_ty seen t = true) /\
  (forall fs seen, wnested_fields fs -> sizes_fields fs = true -> NoDup (f_ids fs) ->
     (forall id, In id (f_ids fs) -> ~ In id seen) ->
     (forall i id t k d, nth_error (f_list fs) i = Some (id, t, k) -> In d (uses t) ->
        In d (firstn i (f_ids fs)) \/ In d seen) ->
     (forall gs, In gs (lists_fields fs) -> good_list gs) -> wf_fields seen fs = true) /\
  (forall al seen, wnested_alts al -> sizes_alts al = true -> (forall d, In d (deep_uses_alts al) -> In d seen) ->
     (forall gs, In gs (lists_alts al) -> good_list gs) -> wf_alts seen al = true).
Proof.
  assert (forall fs, (forall seen, wnested_fields fs -> sizes_fields fs = true -> NoDup (f_ids fs) ->
     (forall id, In id (f_ids fs) -> ~ In id seen) ->
     (forall i id t k d, nth_error (f_list fs) i = Some (id, t, k) -> In d (uses t) ->
        In d (firstn i (f_ids fs)) \/ In d seen) ->
     (forall gs, In gs (lists_fields fs) -> good_list gs) -> wf_fields seen fs = true) ->
     wnested_fields fs -> sizes_fields fs = true ->
     (forall gs, fs = gs \/ In gs (lists_fields fs) -> good_list gs) -> wf_fields [] fs = true) as HREC.
  { intros fs IH HW HS HG. destruct (HG fs) as (HN & HU); auto. apply IH; auto.
    intros i id t k d Hi Hd. left. eapply HU; eauto. }
  apply schema_mutind; simpl; auto.
  - intros e l b seen _ HS HU _. rewrite HS. simpl. apply len_wf_iff. auto.
  - intros fs IH r l b seen HW HS HU HG. rewrite Bool.andb_true_iff in HS. destruct HS as (HS1 & HS2).
    rewrite (HREC fs IH HW HS1 HG), HS2. simpl. apply len_wf_iff. auto.
  - intros b IH p ids seen (_ & HW) HS HU HG. rewrite Bool.andb_true_iff. split.
    + apply all_in_iff. intros d Hd. apply HU. rewrite in_app_iff. auto.
    + apply IH; auto. intros d Hd. apply HU. rewrite in_app_iff. auto.
  - intros g al IH seen (_ & HW) HS HU HG. rewrite Bool.andb_true_iff. split.
    + apply (guide_wf_iff _ _ al). intros d Hd. apply HU. rewrite in_app_iff. auto.
    + apply IH; auto. intros d Hd. apply HU. rewrite in_app_iff. auto.
  - intros id t IH k fs IHf seen (HW1 & HW2) HS HN HD HU HG.
    rewrite Bool.andb_true_iff in HS. destruct HS as (HS1 & HS2). inversion HN as [|? ? N1 N2]; subst.
    rewrite !Bool.andb_true_iff. split; [split|].
    + apply Bool.negb_true_iff. destruct (memb id seen) eqn:E; auto. apply memb_iff in E.
      exfalso. apply (HD id); auto.
    + apply IH; auto.
      * intros d Hd. apply deep_uses_iff in Hd; [|apply wnested_plain; auto].
        destruct (HU 0%nat id t k d eq_refl Hd) as [[]|K]; auto.
      * intros gs Hin. apply HG. rewrite in_app_iff. auto.
    + apply IHf; auto.
      * intros i Hi [<-|K]; [auto|]. apply (HD i); auto.
      * intros i id' t' k' d Hi Hd. destruct (HU (S i) id' t' k' d Hi Hd) as [K|K]; [|simpl; auto].
        simpl in K. destruct K as [<-|K]; simpl; auto.
      * intros gs Hin. apply HG. rewrite in_app_iff. auto.
  - intros t IH k al IHa seen (HW1 & HW2) HS HU HG.
    rewrite Bool.andb_true_iff in HS. destruct HS as (HS1 & HS2). rewrite Bool.andb_true_iff. split.
    + apply IH; auto.
      * intros d Hd. apply HU. rewrite in_app_iff. auto.
      * intros gs Hin. apply HG. rewrite in_app_iff. auto.
    + apply IHa; auto.
      * intros d Hd. apply HU. rewrite in_app_iff. auto.
      * intros gs Hin. apply HG. rewrite in_app_iff. auto.
Qed.

(** ... and conversely. *)
Lemma wf_elim :
  (forall t seen, wf_ty seen t = true -> sizes_ty t = true /\ (forall d, In d (deep_uses t) -> In d seen) /\
     (wnested_ty t -> forall gs, In gs (lists_ty t) -> good_list gs)) /\
  (forall fs seen, wf_fields seen fs = true -> sizes_fields fs = true /\ NoDup (f_ids fs) /\
     (forall id, In id (f_ids fs) -> ~ In id seen) /\
     (wnested_fields fs ->
       (forall i id t k d, nth_error (f_list fs) i = Some (id, t, k) -> In d (uses t) ->
          In d (firstn i (f_ids fs)) \/ In d seen) /\
       (forall gs, In gs (lists_fields fs) -> good_list gs))) /\
  (forall al seen, wf_alts seen al = true -> sizes_alts al = true /\
     (forall d, In d (deep_uses_alts al) -> In d seen) /\
     (wnested_alts al -> forall gs, In gs (lists_alts al) -> good_list gs)).
Proof.
  assert (forall fs, (sizes_fields fs = true /\ NoDup (f_ids fs) /\
     (forall id, In id (f_ids fs) -> ~ In id []) /\
     (wnested_fields fs ->
       (forall i id t k d, nth_error (f_list fs) i = Some (id, t, k) -> In d (uses t) ->
          In d (firstn i (f_ids fs)) \/ In d []) /\
       (forall gs, In gs (lists_fields fs) -> good_list gs))) ->
     sizes_fields fs = true /\ (wnested_fields fs -> forall gs, fs = gs \/ In gs (lists_fields fs) -> good_list gs)) as HREC.
  { intros fs (HS & HN & _ & H). split; auto. intros HW gs [<-|Hin]; [|apply H; auto]. split; auto.
    intros i id t k d Hi Hd. destruct (H HW) as (H1 & _). destruct (H1 i id t k d Hi Hd) as [K|[]]. auto. }
  apply schema_mutind; simpl.
  - intros t n seen H. split; [auto|]. split; [intros d []|intros _ gs []].
  - intros e l b seen H. rewrite Bool.andb_true_iff in H. destruct H as (H1 & H2).
    split; [auto|]. split; [apply len_wf_iff; auto|intros _ gs []].
  - intros fs IH seen H. apply IH in H. apply HREC in H. destruct H. split; [auto|]. split; [intros d []|auto].
  - intros n fs IH seen H. apply IH in H. apply HREC in H. destruct H. split; [auto|]. split; [intros d []|auto].
  - intros fs IH r l b seen H. rewrite !Bool.andb_true_iff in H. destruct H as ((H & H2) & H3).
    apply IH in H. apply HREC in H. destruct H as (H & H'). rewrite H, H2. split; [auto|].
    split; [apply len_wf_iff; auto|auto].
  - intros b IH p ids seen H. rewrite Bool.andb_true_iff in H. destruct H as (H1 & H2).
    apply IH in H2. destruct H2 as (H2 & H3 & H4). split; [auto|]. split; [|tauto].
    intros d Hd. rewrite in_app_iff in Hd. destruct Hd as [Hd|Hd]; auto.
    eapply (proj1 (all_in_iff _ _)); eauto.
  - intros g al IH seen H. rewrite Bool.andb_true_iff in H. destruct H as (H1 & H2).
    apply IH in H2. destruct H2 as (H2 & H3 & H4). split; [auto|]. split; [|tauto].
    intros d Hd. rewrite in_app_iff in Hd. destruct Hd as [Hd|Hd]; auto.
    eapply (proj1 (guide_wf_iff _ _ al)); eauto.
  - intros seen _. split; [auto|]. split; [constructor|]. split; [intros id []|]. intros _.
    split; [intros [|i]; discriminate|intros gs []].
  - intros id t IH k fs IHf seen H. rewrite !Bool.andb_true_iff in H. destruct H as ((H0 & H1) & H2).
    apply Bool.negb_true_iff in H0. apply IH in H1. apply IHf in H2.
    destruct H1 as (S1 & U1 & G1). destruct H2 as (S2 & N2 & D2 & G2).
    rewrite S1, S2. split; [auto|]. split.
    { constructor; auto. intros Hin. apply D2 in Hin. simpl in Hin. tauto. }
    split. { intros i [<-|Hi] Hs; [apply memb_iff in Hs; congruence|]. apply D2 in Hi. simpl in Hi. tauto. }
    intros (W1 & W2). destruct (G2 W2) as (G3 & G4). split.
    + intros [|i] id' t' k' d Hi Hd; simpl in Hi.
      * injection Hi as -> -> ->. right. apply U1. apply deep_uses_iff; auto. apply wnested_plain; auto.
      * destruct (G3 i id' t' k' d Hi Hd) as [K|[<-|K]]; simpl; auto.
    + intros gs Hin. rewrite in_app_iff in Hin. destruct Hin; auto.
  - intros seen _. split; [auto|]. split; [intros d []|intros _ gs []].
  - intros t IH k al IHa seen H. rewrite Bool.andb_true_iff in H. destruct H as (H1 & H2).
    apply IH in H1. apply IHa in H2. destruct H1 as (S1 & U1 & G1). destruct H2 as (S2 & U2 & G2).
    rewrite S1, S2. split; [auto|]. split.
    + intros d Hd. rewrite in_app_iff in Hd. destruct Hd; auto.
    + intros (W1 & W2) gs Hin. rewrite in_app_iff in Hin. destruct Hin; auto.
Qed.

Lemma wf_iff fs : wnested_fields fs ->
  (wf fs = true <-> sizes_fields fs = true /\ forall gs, In gs (lists fs) -> NoDup (f_ids gs) /\ uses_earlier gs).
Proof.
  intros HW. unfold wf, lists. split.
  - intros H. apply wf_elim in H. destruct H as (HS & HN & _ & H). split; [auto|].
    destruct (H HW) as (H1 & H2). intros gs [<-|Hin]; [|apply H2; auto]. split; auto.
    intros i id t k d Hi Hd. destruct (H1 i id t k d Hi Hd) as [K|[]]. auto.
  - intros (HS & H). apply wf_intro; auto.
    + apply H. simpl. auto.
    + intros i id t k d Hi Hd. left. destruct (H fs) as (_ & HU); [simpl; auto|]. eapply HU; eauto.
    + intros gs Hin. apply H. simpl. auto.
Qed.

(** ** Accepted schemas and well-formed ones *)

Lemma lists_wnested :
  (forall t, wnested_ty t -> forall gs, In gs (lists_ty t) -> wnested_fields gs) /\
  (forall fs, wnested_fields fs -> forall gs, In gs (lists_fields fs) -> wnested_fields gs) /\
  (forall al, wnested_alts al -> forall gs, In gs (lists_alts al) -> wnested_fields gs).
Proof.
  apply schema_mutind; simpl; try (intros; contradiction).
  - intros fs IH H gs [<-|Hin]; auto.
  - intros n fs IH H gs [<-|Hin]; auto.
  - intros fs IH r l b H gs [<-|Hin]; auto.
  - intros b IH p ids (_ & H). auto.
  - intros g al IH (_ & H). auto.
  - intros id t IH k fs IHf (H1 & H2) gs Hin. rewrite in_app_iff in Hin. destruct Hin; auto.
  - intros t IH k al IHa (H1 & H2) gs Hin. rewrite in_app_iff in Hin. destruct Hin; auto.
Qed.

Lemma accepted_wf szw fs : accepted szw fs = true -> sizes_fields fs = true ->
  (forall gs, In gs (lists fs) -> named gs) ->
  (forall gs id t k, In gs (lists fs) -> In (id, t, k) (f_list gs) -> ~ In id (uses t)) ->
  wf fs = true.
Proof.
  intros HA HS HN HSelf.
  assert (wnested_fields fs) as HW.
  { unfold accepted in HA. rewrite Bool.andb_true_iff in HA. eapply accepted_wnested. apply HA. }
  apply wf_iff; auto. split; [auto|]. intros gs Hin.
  destruct (accepted_all _ _ _ HA Hin) as (H1 & H2).
  assert (wnested_fields gs) as HWg.
  { destruct Hin as [<-|Hin]; auto. apply (proj1 (proj2 lists_wnested) fs); auto. }
  apply accepted_list_named in H1; auto; [|apply wnested_fields_plain; auto].
  destruct H1 as (HD & _ & HU). split; [auto|]. intros i id t k d Hi Hd.
  destruct (HU i id t k d Hi Hd) as [K| ->]; auto. exfalso. eapply HSelf; eauto.
  eapply nth_error_In; eauto.
Qed.

Lemma wf_accepted_parts szw :
  (forall t k, wnested_ty t -> sizes_ty t = true ->
     (forall gs, In gs (lists_ty t) -> list_accepted gs = true /\
        forall g, In g (switches gs) -> NoDup (match_values_of szw g)) ->
     (match t with FUnion g _ => NoDup (match_values_of szw g) | _ => True end) ->
     accepted_ty szw k t = true) /\
  (forall fs, wnested_fields fs -> sizes_fields fs = true ->
     (forall gs, In gs (lists_fields fs) -> list_accepted gs = true /\
        forall g, In g (switches gs) -> NoDup (match_values_of szw g)) ->
     (forall g, In g (switches fs) -> NoDup (match_values_of szw g)) ->
     accepted_fields szw fs = true) /\
  (forall al, wnested_alts al -> Forall plain_field (a_types al) -> sizes_alts al = true ->
     (forall gs, In gs (lists_alts al) -> list_accepted gs = true /\
        forall g, In g (switches gs) -> NoDup (match_values_of szw g)) ->
     accepted_alts szw al = true).
Proof.
  apply schema_mutind; simpl; auto.
  - intros t n k _ HS _ _. rewrite Bool.andb_true_iff in HS. destruct HS as (_ & HS).
    unfold width_accepted. destruct t; auto; simpl in HS; rewrite HS; auto.
  - intros fs IH k HW HS HG _. destruct (HG fs) as (H1 & H2); auto. rewrite H1. apply IH; auto.
  - intros n fs IH k HW HS HG _. destruct (HG fs) as (H1 & H2); auto. rewrite H1. apply IH; auto.
  - intros fs IH r l b k HW HS HG _. rewrite Bool.andb_true_iff in HS. destruct HS as (HS & _).
    destruct (HG fs) as (H1 & H2); auto. rewrite H1. apply IH; auto.
  - intros b IH p ids k (HP & HW) HS HG _. rewrite (proj2 (no_variance_plain b) HP). apply IH; auto.
    destruct b; simpl in *; auto; contradiction.
  - intros g al IH k (HP & HW) HS HG HV. rewrite (proj2 (values_unique_iff szw g) HV). apply IH; auto.
  - intros id t IH k fs IHf (HW1 & HW2) HS HG HV. rewrite Bool.andb_true_iff in *. destruct HS as (HS1 & HS2).
    split.
    + apply IH; auto.
      * intros gs Hin. apply HG. rewrite in_app_iff. auto.
      * destruct t; auto. apply HV. simpl. auto.
    + apply IHf; auto.
      * intros gs Hin. apply HG. rewrite in_app_iff. auto.
      * intros g Hg. apply HV. unfold switches. simpl. rewrite in_app_iff. auto.
  - intros t IH k al IHa (HW1 & HW2) HP HS HG. inversion HP as [|? ? HP1 HP2]; subst.
    rewrite Bool.andb_true_iff in HS. destruct HS as (HS1 & HS2).
    rewrite (proj2 (no_variance_plain t) HP1). simpl. rewrite Bool.andb_true_iff. split.
    + apply IH; auto.
      * intros gs Hin. apply HG. rewrite in_app_iff. auto.
      * destruct t; simpl in *; auto; contradiction.
    + apply IHa; auto. intros gs Hin. apply HG. rewrite in_app_iff. auto.
Qed.

Lemma wf_accepted szw fs : wf fs = true -> typed fs = true ->
  (forall gs, In gs (lists fs) -> named gs /\ small gs /\
     forall g, In g (switches gs) -> NoDup (match_values_of szw g)) ->
  accepted szw fs = true.
Proof.
  intros HWF HT H.
  assert (wnested_fields fs) as HW by (eapply typed_wnested; eauto).
  apply wf_iff in HWF; auto. destruct HWF as (HS & HL).
  assert (forall gs, In gs (lists fs) -> list_accepted gs = true) as HA.
  { intros gs Hin. destruct (H gs Hin) as (H1 & H2 & _). destruct (HL gs Hin) as (H3 & H4).
    apply accepted_list_named; auto.
    - apply wnested_fields_plain. destruct Hin as [<-|Hin]; auto. apply (proj1 (proj2 lists_wnested) fs); auto.
    - split; [auto|]. split; [auto|]. intros i id t k d Hi Hd. left. eapply H4; eauto. }
  unfold accepted. rewrite HA by (simpl; auto). simpl.
  apply wf_accepted_parts; auto.
  - intros gs Hin. split; [apply HA; simpl; auto|]. apply H. simpl. auto.
  - apply H. simpl. auto.
Qed.

(** ** Acceptance, exactly *)

Lemma width_iff k t : plain_field t -> forall (m : Prop), (m <-> exists s lit, k = CCmp OEq s lit) ->
  (match t with FFixed t' n => width_accepted k t' n | _ => true end = true <-> width_ok m t).
Proof.
  intros _ m Hm. destruct t as [t n| | | | | |]; simpl; try tauto.
  destruct t as [s|a t|a|w]; simpl width_accepted; cbv beta iota; rewrite ?Bool.orb_true_iff, ?Nat.leb_le, ?Nat.eqb_eq; try tauto.
  rewrite Hm. split; intros [H|H]; auto; right.
  - destruct k as [|[]| | | | | | |]; try discriminate; eauto.
  - destruct H as (s' & lit & ->). reflexivity.
Qed.

Definition fine szw (gs : fields) : Prop :=
  list_accepted gs = true /\ forall id t k, In (id, t, k) (f_list gs) -> described szw k t.

Lemma described_accepted szw :
  (forall t k, (forall gs, In gs (lists_ty t) -> fine szw gs) -> described szw k t -> accepted_ty szw k t = true) /\
  (forall fs, (forall gs, In gs (lists_fields fs) -> fine szw gs) ->
     (forall id t k, In (id, t, k) (f_list fs) -> described szw k t) -> accepted_fields szw fs = true) /\
  (forall al, (forall gs, In gs (lists_alts al) -> fine szw gs) ->
     Forall (fun u => plain_field u /\ width_ok False u) (a_types al) -> accepted_alts szw al = true).
Proof.
  assert (NK : False <-> exists s lit, CNone = CCmp OEq s lit) by (split; [tauto|intros (s & lit & E); discriminate]).
  assert (D : forall t, plain_field t -> width_ok False t -> described szw CNone t).
  { intros t P W. pose proof (proj2 (width_iff CNone t P _ NK) W) as A.
    apply (width_iff CNone t P _ (iff_refl _)) in A. destruct t; simpl in *; auto; contradiction. }
  apply schema_mutind; simpl; auto.
  - intros t n k _ W. apply (width_iff k (FFixed t n) I _ (iff_refl _)). exact W.
  - intros fs IH k L _. destruct (L fs (or_introl eq_refl)) as [A B]. rewrite A. apply IH; auto.
  - intros n fs IH k L _. destruct (L fs (or_introl eq_refl)) as [A B]. rewrite A. apply IH; auto.
  - intros fs IH r l b k L _. destruct (L fs (or_introl eq_refl)) as [A B]. rewrite A. apply IH; auto.
  - intros b IH p ids k L [P W]. rewrite (proj2 (no_variance_plain b) P). apply IH; auto.
  - intros g al IH k L [N F]. rewrite (proj2 (values_unique_iff szw g) N). apply IH; auto.
  - intros id t IH k fs IHf L F. rewrite IH, IHf; eauto; intros; apply L; rewrite in_app_iff; auto.
  - intros t IH k al IHa L F. inversion F as [|? ? [P W] F']; subst.
    rewrite (proj2 (no_variance_plain t) P), IH, IHa; auto; intros; apply L; rewrite in_app_iff; auto.
Qed.

Lemma accepted_described szw : forall t k, accepted_ty szw k t = true -> described szw k t.
Proof.
  assert (NK : False <-> exists s lit, CNone = CCmp OEq s lit) by (split; [tauto|intros (s & lit & E); discriminate]).
  assert (W : forall t, no_variance t = true -> accepted_ty szw CNone t = true -> plain_field t /\ width_ok False t).
  { intros t P A. apply no_variance_plain in P. split; [auto|]. apply (width_iff CNone t P _ NK).
    destruct t; simpl in *; auto. }
  intros t k H. destruct t as [t n| | | | |b p ids|g al]; simpl in *; auto.
  - apply (width_iff k (FFixed t n) I _ (iff_refl _)). exact H.
  - rewrite Bool.andb_true_iff in H. apply W; tauto.
  - rewrite Bool.andb_true_iff, values_unique_iff in H. destruct H as [N A]. split; [auto|].
    induction al as [|t k' al IH]; simpl in *; constructor; rewrite !Bool.andb_true_iff in A.
    + apply W; tauto.
    + apply IH. tauto.
Qed.

Lemma described_plain szw gs : (forall id t k, In (id, t, k) (f_list gs) -> described szw k t) -> all_nest_plain gs.
Proof.
  intros H id t k Hin. specialize (H id t k Hin). destruct t; simpl in *; auto; [tauto|].
  destruct H as [_ H]. eapply Forall_impl; [|exact H]. intros u [P _]. exact P.
Qed.

Lemma accepted_exact szw fs : (forall gs, In gs (lists fs) -> named gs) ->
  (accepted szw fs = true <-> forall gs, In gs (lists fs) ->
     NoDup (f_ids gs) /\ small gs /\ uses_earlier_or_itself gs /\
     forall id t k, In (id, t, k) (f_list gs) -> described szw k t).
Proof.
  intros N. split.
  - intros H gs Hin. destruct (accepted_all _ _ _ H Hin) as [A1 A2].
    assert (D : forall id t k, In (id, t, k) (f_list gs) -> described szw k t).
    { intros id t k Ht. apply accepted_described. eapply accepted_fields_in; eauto. }
    apply (accepted_list_named gs (described_plain _ _ D) (N _ Hin)) in A1. tauto.
  - intros H.
    assert (F : forall gs, In gs (lists fs) -> fine szw gs).
    { intros gs Hin. destruct (H gs Hin) as (H1 & H2 & H3 & H4). split; [|auto].
      apply (accepted_list_named gs (described_plain _ _ H4) (N _ Hin)). auto. }
    unfold accepted. destruct (F fs (or_introl eq_refl)) as [A B]. rewrite A. simpl.
    apply (proj1 (proj2 (described_accepted szw))); auto. intros gs Hin. apply F. right. auto.
Qed.
