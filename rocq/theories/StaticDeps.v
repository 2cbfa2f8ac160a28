(** * Name lookup and dependency checks: lemmas *)
From Coq Require Import String Permutation ZifyBool ZifyNat.
From Verif Require Import Static StaticSpec BytesFacts WriteLoc StaticFacts.
Local Open Scope list_scope.

(** ** The field table *)

Lemma seq_shift_infos (tid : nat -> Z) ids : forall a id x, NoDup ids ->
  (assoc (combine ids (map (fun i => mkInfo (tid i) i) (seq a (length ids)))) id = Some x <->
   exists i, nth_error ids i = Some id /\ x = mkInfo (tid (a + i)%nat) (a + i)%nat).
Proof.
  induction ids as [|k ids IH]; intros a id x HN; simpl.
  - split; [discriminate|]. intros ([|i] & H & _); discriminate.
  - inversion HN as [|? ? H1 H2]; subst. destruct (String.eqb_spec k id) as [->|NE].
    + split.
      * intros H. injection H as <-. exists 0%nat. simpl. rewrite Nat.add_0_r. auto.
      * intros ([|i] & H & ->); [rewrite Nat.add_0_r; auto|]. exfalso. apply H1.
        simpl in H. eapply nth_error_In; eauto.
    + rewrite IH; auto. split.
      * intros (i & H & ->). exists (S i). simpl. rewrite Nat.add_succ_r. auto.
      * intros ([|i] & H & ->); simpl in H; [congruence|]. exists i. rewrite Nat.add_succ_r. auto.
Qed.

Lemma combine_keys {A B} (l : list A) : forall (m : list B), length l = length m ->
  map fst (combine l m) = l.
Proof.
  induction l as [|x l IH]; intros [|y m] H; simpl in *; try discriminate; auto.
  f_equal. apply IH. lia.
Qed.

Lemma table_total tid fs : (f_len fs <= 256)%nat -> exists ft, field_table tid fs = Some ft.
Proof.
  intros H. unfold field_table, static_map. rewrite combine_length, map_length, seq_length, f_len_ids.
  unfold max_field_count. replace (Nat.ltb 256 _) with false by (symmetry; apply Nat.ltb_ge; lia).
  eauto.
Qed.

Lemma table_size tid fs ft : field_table tid fs = Some ft -> (f_len fs <= 256)%nat.
Proof.
  unfold field_table. intros H. apply map_facts in H. destruct H as (H & _).
  rewrite combine_length, map_length, seq_length, f_len_ids in H. unfold max_field_count in H. lia.
Qed.

Lemma table_get tid fs ft id x : field_table tid fs = Some ft -> NoDup (f_ids fs) ->
  (map_get ft id = Some x <->
   (id = EmptyString /\ (f_len fs < 256)%nat /\ x = mkInfo 0 0) \/
   ((id <> EmptyString \/ f_len fs = 256%nat) /\
    exists i, nth_error (f_ids fs) i = Some id /\ x = mkInfo (tid i) i)).
Proof.
  intros H HN. pose proof (table_size _ _ _ H) as HS. unfold field_table in H.
  erewrite map_lookup; [|exact H|].
  2: { rewrite combine_keys; auto. rewrite map_length, seq_length. apply f_len_ids. }
  rewrite combine_length, map_length, seq_length, f_len_ids, Nat.min_id.
  rewrite <- (f_len_ids fs) at 2. unfold max_field_count.
  pose proof (seq_shift_infos tid (f_ids fs) 0 id x HN) as HI. simpl in HI.
  destruct (String.eqb_spec EmptyString id) as [<-|NE].
  - rewrite Bool.andb_true_r. destruct (Nat.ltb (f_len fs) 256) eqn:E.
    + apply Nat.ltb_lt in E. split.
      * intros K. injection K as <-. auto.
      * intros [(_ & _ & ->)|([K|K] & _)]; [auto|congruence|lia].
    + apply Nat.ltb_ge in E. rewrite HI. split.
      * intros K. right. split; [right; lia|auto].
      * intros [(_ & K & _)|(_ & K)]; [lia|auto].
  - rewrite Bool.andb_false_r, HI. split.
    + intros K. right. auto.
    + intros [(K & _)|(_ & K)]; [congruence|auto].
Qed.

Lemma nth_error_in_iff {A} (l : list A) x : In x l <-> exists i, nth_error l i = Some x.
Proof.
  split; [apply In_nth_error|]. intros (i & H). eapply nth_error_In; eauto.
Qed.

(** ** Dependency checks *)

Lemma deps_before_iff ft n deps : deps_before ft n deps = Some true <->
  forall d, In d deps -> exists x, map_get ft d = Some x /\ (fi_at x <= n)%nat.
Proof.
  induction deps as [|d deps IH]; simpl; [split; [intros _ d []|auto]|].
  destruct (map_get ft d) as [x|] eqn:E.
  - destruct (Nat.ltb n (fi_at x)) eqn:E2.
    + split; [discriminate|]. intros H. destruct (H d) as (y & Ey & Hy); auto.
      rewrite E in Ey. injection Ey as <-. apply Nat.ltb_lt in E2. lia.
    + apply Nat.ltb_ge in E2. rewrite IH. split.
      * intros H d' [<-|Hd]; eauto.
      * intros H d' Hd. auto.
  - split; [discriminate|]. intros H. destruct (H d) as (y & Ey & _); auto. congruence.
Qed.

Lemma resolved_table_iff ft dt : is_dependencies_resolved ft dt = Some true <->
  forall name deps, In (name, deps) dt -> exists x, map_get ft name = Some x /\
    forall d, In d deps -> exists y, map_get ft d = Some y /\ (fi_at y <= fi_at x)%nat.
Proof.
  induction dt as [|[name deps] dt IH]; simpl; [split; [intros _ n d []|auto]|].
  destruct (map_get ft name) as [x|] eqn:E.
  - destruct (deps_before ft (fi_at x) deps) as [[|]|] eqn:ED.
    + pose proof (proj1 (deps_before_iff _ _ _) ED) as HD. rewrite IH. split.
      * intros H n d [K|K]; [injection K as <- <-; exists x; auto|auto].
      * intros H n d K. auto.
    + split; [discriminate|]. intros H. destruct (H name deps) as (y & Ey & Hy); auto.
      rewrite E in Ey. injection Ey as <-. apply (proj2 (deps_before_iff _ _ _)) in Hy. congruence.
    + split; [discriminate|]. intros H. destruct (H name deps) as (y & Ey & Hy); auto.
      rewrite E in Ey. injection Ey as <-. apply (proj2 (deps_before_iff _ _ _)) in Hy. congruence.
  - split; [discriminate|]. intros H. destruct (H name deps) as (y & Ey & _); auto. congruence.
Qed.

Lemma all_some_iff {A} (l : list (option A)) r : all_some l = Some r <-> l = map Some r.
Proof.
  revert r. induction l as [|[a|] l IH]; intros r; simpl.
  - split; [intros H; injection H as <-; auto|]. destruct r; [auto|discriminate].
  - destruct (all_some l) as [r'|] eqn:E.
    + split.
      * intros H. injection H as <-. simpl. f_equal. apply IH. auto.
      * destruct r as [|b r]; [discriminate|]. simpl. intros H. injection H as <- H.
        apply IH in H. congruence.
    + split; [discriminate|]. destruct r as [|b r]; [discriminate|]. simpl. intros H.
      injection H as <- H. apply IH in H. congruence.
  - split; [discriminate|]. destruct r; discriminate.
Qed.

Lemma f_types_list fs : f_types fs = map (fun x => snd (fst x)) (f_list fs).
Proof. induction fs as [|id t k fs IH]; simpl; f_equal; auto. Qed.

Lemma f_ids_list fs : f_ids fs = map (fun x => fst (fst x)) (f_list fs).
Proof. induction fs as [|id t k fs IH]; simpl; f_equal; auto. Qed.

Lemma f_len_list fs : length (f_list fs) = f_len fs.
Proof. induction fs as [|id t k fs IH]; simpl; f_equal; auto. Qed.

Lemma combine_assoc {V} ids : forall (ds : list V) id v, NoDup ids -> length ids = length ds ->
  (assoc (combine ids ds) id = Some v <->
   exists i, nth_error ids i = Some id /\ nth_error ds i = Some v).
Proof.
  induction ids as [|k ids IH]; intros [|d ds] id v HN HL; simpl in *; try discriminate.
  - split; [discriminate|]. intros ([|i] & H & _); discriminate.
  - inversion HN as [|? ? H1 H2]; subst. destruct (String.eqb_spec k id) as [->|NE].
    + split.
      * intros H. exists 0%nat. auto.
      * intros ([|i] & H & K); [auto|]. exfalso. apply H1. eapply nth_error_In; eauto.
    + rewrite IH; auto. split.
      * intros (i & H). exists (S i). auto.
      * intros ([|i] & H); [simpl in H; destruct H; congruence|]. exists i. auto.
Qed.

Lemma dep_table_facts deps fs dt : dep_table deps fs = Some dt -> NoDup (f_ids fs) ->
  exists ds, map deps (f_types fs) = map Some ds /\ (f_len fs <= 256)%nat /\
  forall name l, In (name, l) dt <->
    (name = EmptyString /\ (f_len fs < 256)%nat /\ l = []) \/
    ((name <> EmptyString \/ f_len fs = 256%nat) /\
     exists i, nth_error (f_ids fs) i = Some name /\ nth_error ds i = Some l).
Proof.
  unfold dep_table. intros H HN. destruct (all_some (map deps (f_types fs))) as [ds|] eqn:E; [|discriminate].
  apply all_some_iff in E. exists ds. split; auto.
  assert (length ds = f_len fs) as HL.
  { apply (f_equal (@length _)) in E. rewrite !map_length, f_types_list, map_length, f_len_list in E. auto. }
  assert (map fst (combine (f_ids fs) ds) = f_ids fs) as HK.
  { apply combine_keys. rewrite f_len_ids. auto. }
  pose proof (map_facts _ _ _ _ H) as (HS & HND & _).
  rewrite combine_length, f_len_ids, HL, Nat.min_id in HS. split; [auto|].
  intros name l. rewrite <- assoc_in, <- map_get_assoc; auto.
  erewrite map_lookup; [|exact H|rewrite HK; auto].
  rewrite combine_length, f_len_ids, HL, Nat.min_id. unfold max_field_count.
  unfold max_field_count in HS.
  pose proof (combine_assoc (f_ids fs) ds name l HN) as HC.
  rewrite f_len_ids, HL in HC. specialize (HC eq_refl).
  destruct (String.eqb_spec EmptyString name) as [<-|NE].
  - rewrite Bool.andb_true_r. destruct (Nat.ltb (f_len fs) 256) eqn:E2.
    + apply Nat.ltb_lt in E2. split.
      * intros K. injection K as <-. auto.
      * intros [(_ & _ & ->)|([K|K] & _)]; [auto|congruence|lia].
    + apply Nat.ltb_ge in E2. rewrite HC. split.
      * intros K. right. split; [right; lia|auto].
      * intros [(_ & K & _)|(_ & K)]; [lia|auto].
  - rewrite Bool.andb_false_r, HC. split.
    + intros K. right. auto.
    + intros [(K & _)|(_ & K)]; [congruence|auto].
Qed.

Lemma dep_table_total deps fs ds : map deps (f_types fs) = map Some ds -> (f_len fs <= 256)%nat ->
  exists dt, dep_table deps fs = Some dt.
Proof.
  intros E HL. unfold dep_table. apply all_some_iff in E. rewrite E. unfold static_map.
  rewrite combine_length, f_len_ids. unfold max_field_count.
  replace (Nat.ltb 256 _) with false by (symmetry; apply Nat.ltb_ge; lia). eauto.
Qed.

Lemma nth_map_some {A B} (f : A -> option B) l ds i a : map f l = map Some ds ->
  nth_error l i = Some a -> exists b, f a = Some b /\ nth_error ds i = Some b.
Proof.
  intros E H. apply (map_nth_error f) in H. rewrite E in H.
  destruct (nth_error ds i) as [b|] eqn:Eb.
  - apply (map_nth_error Some) in Eb as Eb'. rewrite Eb' in H. exists b. split; congruence.
  - assert (nth_error (map Some ds) i = None) as K; [|congruence].
    apply nth_error_None. rewrite map_length. apply nth_error_None. auto.
Qed.

Lemma types_nth fs i id t k : nth_error (f_list fs) i = Some (id, t, k) ->
  nth_error (f_types fs) i = Some t /\ nth_error (f_ids fs) i = Some id.
Proof.
  intros H. rewrite f_types_list, f_ids_list. split.
  - apply (map_nth_error (fun x => snd (fst x))) in H. auto.
  - apply (map_nth_error (fun x => fst (fst x))) in H. auto.
Qed.

(** Where a name is found: at its own position, or, if empty, at the front. *)
Definition found (fs : fields) (d : ident) (j : nat) : Prop :=
  (d = EmptyString /\ (f_len fs < 256)%nat /\ j = 0%nat) \/
  ((d <> EmptyString \/ f_len fs = 256%nat) /\ nth_error (f_ids fs) j = Some d).

Lemma get_found tid fs ft d : field_table tid fs = Some ft -> NoDup (f_ids fs) ->
  forall j, (exists x, map_get ft d = Some x /\ fi_at x = j) <-> found fs d j.
Proof.
  intros H HN j. unfold found. split.
  - intros (x & Hx & <-). apply (table_get _ _ _ _ _ H HN) in Hx.
    destruct Hx as [(-> & K & ->)|(K & i & Hi & ->)]; [left; auto|right; auto].
  - intros [(-> & K & ->)|(K & Hj)].
    + exists (mkInfo 0 0). split; auto. apply (table_get _ _ _ _ _ H HN). left. auto.
    + exists (mkInfo (tid j) j). split; auto. apply (table_get _ _ _ _ _ H HN). right. eauto.
Qed.

Lemma found_fun fs d j j' : NoDup (f_ids fs) -> found fs d j -> found fs d j' -> j = j'.
Proof.
  intros HN [(-> & K & ->)|(K & H)] [(E' & K' & ->)|(K' & H')]; auto.
  - destruct K' as [K'|K']; [congruence|lia].
  - destruct K as [K|K]; [congruence|lia].
  - apply (proj1 (NoDup_nth_error _) HN); [apply nth_error_Some; congruence|congruence].
Qed.

Lemma resolved_iff fs deps : NoDup (f_ids fs) ->
  (resolved fs deps = true <->
   (f_len fs <= 256)%nat /\ (exists ds, map deps (f_types fs) = map Some ds) /\
   forall i id t k l, nth_error (f_list fs) i = Some (id, t, k) ->
     (id <> EmptyString \/ f_len fs = 256%nat) -> deps t = Some l ->
     forall d, In d l -> exists j, found fs d j /\ (j <= i)%nat).
Proof.
  intros HN. unfold resolved. split.
  - destruct (field_table _ fs) as [ft|] eqn:EF; [|discriminate].
    destruct (dep_table deps fs) as [dt|] eqn:ED; [|discriminate].
    destruct (is_dependencies_resolved ft dt) as [[|]|] eqn:ER; try discriminate. intros _.
    destruct (dep_table_facts _ _ _ ED HN) as (ds & Eds & HL & HD).
    split; [auto|]. split; [eauto|]. intros i id t k l Hi Hid El d Hd.
    pose proof (proj1 (resolved_table_iff ft dt) ER id l) as HR.
    destruct (types_nth _ _ _ _ _ Hi) as (Ht & Hn).
    destruct (nth_map_some _ _ _ _ _ Eds Ht) as (l' & El' & Hl'). rewrite El in El'. injection El' as <-.
    destruct HR as (x & Hx & HR); [apply HD; right; eauto|].
    destruct (HR d Hd) as (y & Hy & Hle).
    assert (found fs id (fi_at x)) as F1 by (apply (get_found _ _ _ _ EF HN); eauto).
    assert (found fs id i) as F2 by (right; auto).
    rewrite (found_fun _ _ _ _ HN F1 F2) in Hle.
    exists (fi_at y). split; auto. apply (get_found _ _ _ _ EF HN). eauto.
  - intros (HL & (ds & Eds) & H). destruct (table_total (fun _ => 0) fs HL) as (ft & EF).
    destruct (dep_table_total _ _ _ Eds HL) as (dt & ED). rewrite EF, ED.
    destruct (dep_table_facts _ _ _ ED HN) as (ds' & Eds' & _ & HD).
    assert (is_dependencies_resolved ft dt = Some true) as ->; auto.
    apply resolved_table_iff. intros name l Hin. apply HD in Hin.
    destruct Hin as [(-> & Hs & ->)|(Hn & i & Hi & Hl)].
    + exists (mkInfo 0 0). split; [|intros d []]. apply (table_get _ _ _ _ _ EF HN). left. auto.
    + exists (mkInfo 0 i). split; [apply (table_get _ _ _ _ _ EF HN); right; eauto|].
      intros d Hd. simpl.
      assert (exists t k, nth_error (f_list fs) i = Some (name, t, k)) as (t & k & Hf).
      { rewrite f_ids_list in Hi. destruct (nth_error (f_list fs) i) as [[[a b] e]|] eqn:E.
        - apply (map_nth_error (fun x => fst (fst x))) in E as E'. rewrite E' in Hi.
          injection Hi as <-. eauto.
        - apply nth_error_None in E. assert (nth_error (map (fun x => fst (fst x)) (f_list fs)) i = None).
          { apply nth_error_None. rewrite map_length. auto. } congruence. }
      destruct (types_nth _ _ _ _ _ Hf) as (Ht & _).
      destruct (nth_map_some _ _ _ _ _ Eds' Ht) as (l' & El' & Hl'). rewrite Hl in Hl'. injection Hl' as <-.
      destruct (H i name t k l Hf Hn El' d Hd) as (j & Hj & Hle).
      apply (get_found _ _ _ _ EF HN) in Hj. destruct Hj as (x & Hx & <-). eauto.
Qed.

(** ** What the extractors extract *)

Lemma dep_vec_eq ids l : dep_vec ids = Some l <-> (length ids <= 64)%nat /\ l = ids.
Proof.
  unfold dep_vec, max_deps. rewrite static_vector_eq. destruct (Nat.leb (length ids) 64) eqn:E.
  - apply Nat.leb_le in E. split; [intros H; injection H as <-; auto|intros (_ & ->); auto].
  - apply Nat.leb_gt in E. split; [discriminate|]. lia.
Qed.

Lemma flatten_ids_eq vecs l : flatten_ids vecs = Some l <->
  (length (concat vecs) <= 64)%nat /\ l = concat vecs.
Proof. apply dep_vec_eq. Qed.

Lemma remove_duplicates_facts v r : (length v <= 64)%nat -> remove_duplicates v = Some r ->
  forall d, In d r <-> In d v.
Proof.
  intros HL. unfold remove_duplicates.
  destruct (set_facts String.eqb String.eqb_eq max_deps v HL) as (s & -> & _ & HI & HS).
  rewrite static_vector_eq. destruct (Nat.leb _ _); [|discriminate].
  intros H. injection H as <-. apply HI.
Qed.

Lemma remove_duplicates_total v : (length v <= 64)%nat -> exists r, remove_duplicates v = Some r /\ NoDup r.
Proof.
  intros HL. unfold remove_duplicates.
  destruct (set_facts String.eqb String.eqb_eq max_deps v HL) as (s & -> & HN & HI & HS).
  rewrite static_vector_eq. unfold max_deps. replace (Nat.leb (length s) 64) with true; [eauto|].
  symmetry. apply Nat.leb_le. exact (Nat.le_trans _ _ _ HS HL).
Qed.

Lemma plain_len_uses t : plain_field t -> forall l, flat_len_deps t = Some l <->
  (length (len_uses t) <= 64)%nat /\ l = len_uses t.
Proof.
  intros H l. destruct t; simpl in *; try contradiction; try (unfold lenspec_deps; destruct l0; apply dep_vec_eq);
    (split; [intros K; injection K as <-; split; [lia|auto]|intros (_ & ->); auto]).
Qed.

Lemma alts_uses al : Forall plain_field (a_types al) -> forall vecs,
  all_some (map flat_len_deps (alts_list al)) = Some vecs -> concat vecs = len_uses_alts al.
Proof.
  induction al as [|t k al IH]; simpl; intros H vecs E.
  - injection E as <-. auto.
  - inversion H as [|? ? H1 H2]; subst. destruct (flat_len_deps t) as [v|] eqn:Ev; [|discriminate].
    destruct (all_some _) as [r|] eqn:Er; [|discriminate]. injection E as <-. simpl.
    apply (plain_len_uses t H1) in Ev. destruct Ev as (_ & ->). f_equal. auto.
Qed.

Lemma alts_uses_total al : Forall plain_field (a_types al) -> (length (len_uses_alts al) <= 64)%nat ->
  exists vecs, all_some (map flat_len_deps (alts_list al)) = Some vecs.
Proof.
  induction al as [|t k al IH]; simpl; intros H HL; [eauto|].
  inversion H as [|? ? H1 H2]; subst. rewrite app_length in HL.
  replace (flat_len_deps t) with (Some (len_uses t)).
  2: { symmetry. apply plain_len_uses; auto. split; [lia|auto]. }
  destruct IH as (r & ->); auto; [lia|]. eauto.
Qed.

Lemma a_len_types al : length (alts_list al) = a_len al.
Proof. induction al; simpl; auto. Qed.

Definition len_small (t : fty) : Prop :=
  (length (len_uses t) <= 64)%nat /\
  match t with
  | FUnion g al => (a_len al <= 64)%nat
  | FMaybe (FVar _ _ (Some _)) _ _ | FMaybe (FVecRec _ _ _ (Some _)) _ _ => False
  | _ => True
  end.

Lemma len_deps_eq t l : nests_plain t -> (len_deps t = Some l <-> len_small t /\ l = len_uses t).
Proof.
  intros HP. unfold len_small. destruct t as [ct n|e le b|fs|n fs|fs r le b|b p ids|g al].
  1,3,4: simpl; split; [intros K; injection K as <-; split; [split; [lia|auto]|auto]|intros (_ & ->); auto].
  1,2: cbn [len_deps]; rewrite plain_len_uses; simpl; tauto.
  - cbn [len_deps nests_plain len_uses] in *.
    assert ((declares_bound b = false) <-> match FMaybe b p ids with
      | FMaybe (FVar _ _ (Some _)) _ _ | FMaybe (FVecRec _ _ _ (Some _)) _ _ => False | _ => True end) as HB.
    { destruct b; simpl; try tauto; destruct b; simpl; split; auto; discriminate || contradiction. }
    destruct (declares_bound b) eqn:EB.
    + split; [discriminate|]. intros ((_ & K) & _). apply HB in K. discriminate.
    + rewrite plain_len_uses; auto. assert (false = false) as E0 by auto. apply HB in E0.
      split; [intros (K & ->)|intros ((K & _) & ->)]; auto.
  - cbn [len_deps nests_plain len_uses] in *. unfold max_deps.
    destruct (Nat.ltb 64 (a_len al)) eqn:EL.
    + apply Nat.ltb_lt in EL. split; [discriminate|]. lia.
    + apply Nat.ltb_ge in EL. split.
      * destruct (all_some _) as [vecs|] eqn:E; [|discriminate]. rewrite flatten_ids_eq.
        rewrite (alts_uses al HP vecs E). tauto.
      * intros ((K & _) & ->). destruct (alts_uses_total al HP K) as (vecs & E). rewrite E.
        apply flatten_ids_eq. rewrite (alts_uses al HP vecs E). auto.
Qed.

Lemma parse_deps_eq t l : parse_deps t = Some l <->
  (length (pred_uses t) <= 64)%nat /\ l = pred_uses t.
Proof.
  destruct t; cbn [parse_deps pred_uses]; try apply dep_vec_eq;
    (split; [intros K; injection K as <-; split; [simpl; lia|auto]|intros (_ & ->); auto]).
Qed.

Definition switch_small (t : fty) : Prop :=
  (length (switch_uses t) <= 64)%nat /\
  match t with FUnion (GLadder brs) _ => (length brs <= 64)%nat | _ => True end.

Lemma ladder_vecs {P : Type} (brs : list (P * list ident)) vecs :
  all_some (map (fun b => dep_vec (snd b)) brs) = Some vecs -> concat vecs = flat_map snd brs.
Proof.
  revert vecs. induction brs as [|[p ids] brs IH]; simpl; intros vecs E; [injection E as <-; auto|].
  destruct (dep_vec ids) as [v|] eqn:Ev; [|discriminate]. destruct (all_some _) as [r|]; [|discriminate].
  injection E as <-. apply dep_vec_eq in Ev. destruct Ev as (_ & ->). simpl. f_equal. auto.
Qed.

Lemma ladder_total {P : Type} (brs : list (P * list ident)) : (length (flat_map snd brs) <= 64)%nat ->
  exists vecs, all_some (map (fun b => dep_vec (snd b)) brs) = Some vecs.
Proof.
  induction brs as [|[p ids] brs IH]; simpl; intros H; [eauto|]. rewrite app_length in H.
  replace (dep_vec ids) with (Some ids) by (symmetry; apply dep_vec_eq; split; [lia|auto]).
  destruct IH as (r & ->); [lia|]. eauto.
Qed.

Lemma type_deps_facts t l : type_deps t = Some l ->
  switch_small t /\ forall d, In d l <-> In d (switch_uses t).
Proof.
  unfold switch_small. destruct t; cbn [type_deps switch_uses].
  1-6: intros K; injection K as <-; split; [simpl; lia|tauto].
  destruct g as [id s cs|f r ids cs|brs].
  1,2: intros K; apply dep_vec_eq in K; destruct K as (K & ->); tauto.
  unfold max_deps. destruct (Nat.ltb 64 (length brs)) eqn:EL; [discriminate|].
  destruct (all_some _) as [vecs|] eqn:E; [|discriminate].
  destruct (flatten_ids vecs) as [v|] eqn:Ev; [|discriminate]. apply flatten_ids_eq in Ev.
  rewrite (ladder_vecs _ _ E) in Ev. destruct Ev as (Ev & ->). intros K.
  split; [split; [auto|apply Nat.ltb_ge in EL; auto]|]. apply remove_duplicates_facts; auto.
Qed.

Lemma type_deps_total t : switch_small t -> exists l, type_deps t = Some l.
Proof.
  unfold switch_small. destruct t; cbn [type_deps switch_uses]; intros (H & H2); eauto.
  destruct g as [id s cs|f r ids cs|brs].
  1,2: eexists; apply dep_vec_eq; eauto.
  unfold max_deps. replace (Nat.ltb 64 (length brs)) with false by (symmetry; apply Nat.ltb_ge; auto).
  destruct (ladder_total brs H) as (vecs & E). rewrite E.
  replace (flatten_ids vecs) with (Some (flat_map snd brs)).
  - destruct (remove_duplicates_total _ H) as (r & -> & _). eauto.
  - symmetry. apply flatten_ids_eq. rewrite (ladder_vecs _ _ E). auto.
Qed.

Lemma map_some_iff {A B} (f : A -> option B) l :
  (exists ds, map f l = map Some ds) <-> forall a, In a l -> exists b, f a = Some b.
Proof.
  induction l as [|a l IH]; simpl.
  - split; [intros _ a []|exists []; auto].
  - split.
    + intros ([|d ds] & E); [discriminate|]. simpl in E. injection E as Ea E.
      intros x [<-|Hx]; [eauto|]. apply IH; eauto.
    + intros H. destruct (H a) as (b & Eb); auto. destruct (proj2 IH) as (ds & E); [auto|].
      exists (b :: ds). simpl. f_equal; auto.
Qed.

Lemma in_types fs t : In t (f_types fs) <-> exists id k, In (id, t, k) (f_list fs).
Proof.
  rewrite f_types_list, in_map_iff. split.
  - intros ([[id t'] k] & <- & H). eauto.
  - intros (id & k & H). exists (id, t, k). auto.
Qed.

(** ** One list *)

Lemma accepted_nodup fs : list_accepted fs = true -> NoDup (f_ids fs).
Proof.
  unfold list_accepted. rewrite !Bool.andb_true_iff. intros ((((_ & H) & _) & _) & _).
  destruct (unique_iff String.eqb String.eqb_eq (f_ids fs)) as (b & E & K). rewrite E in H. tauto.
Qed.

Lemma accepted_list_iff fs : all_nest_plain fs ->
  (list_accepted fs = true <->
   NoDup (f_ids fs) /\ small fs /\
   forall i id t k, nth_error (f_list fs) i = Some (id, t, k) ->
     (id <> EmptyString \/ f_len fs = 256%nat) ->
     forall d, In d (uses t) -> exists j, found fs d j /\ (j <= i)%nat).
Proof.
  intros HP. unfold list_accepted.
  destruct (unique_iff String.eqb String.eqb_eq (f_ids fs)) as (b & E & K). rewrite E.
  rewrite !Bool.andb_true_iff. split.
  - intros ((((H0 & Hb) & H1) & H2) & H3). apply K in Hb. split; [auto|].
    apply (resolved_iff fs _ Hb) in H1. apply (resolved_iff fs _ Hb) in H2.
    apply (resolved_iff fs _ Hb) in H3.
    destruct H1 as (HL & D1 & H1). destruct H2 as (_ & D2 & H2). destruct H3 as (_ & D3 & H3).
    rewrite map_some_iff in D1, D2, D3.
    assert (forall id t k, In (id, t, k) (f_list fs) -> len_deps t = Some (len_uses t) /\ len_small t) as L1.
    { intros id t k Hin. destruct (D1 t) as (l & El); [apply in_types; eauto|].
      apply len_deps_eq in El as El'; [|eapply HP; eauto]. destruct El' as (Hs & ->). auto. }
    assert (forall id t k, In (id, t, k) (f_list fs) -> parse_deps t = Some (pred_uses t) /\
              (length (pred_uses t) <= 64)%nat) as L2.
    { intros id t k Hin. destruct (D2 t) as (l & El); [apply in_types; eauto|].
      apply parse_deps_eq in El as El'. destruct El' as (Hs & ->). auto. }
    assert (forall id t k, In (id, t, k) (f_list fs) -> exists l, type_deps t = Some l /\ switch_small t /\
              forall d, In d l <-> In d (switch_uses t)) as L3.
    { intros id t k Hin. destruct (D3 t) as (l & El); [apply in_types; eauto|].
      apply type_deps_facts in El as El'. exists l. tauto. }
    split.
    + split; [destruct fs; [discriminate|simpl in *; lia]|].
      intros id t k Hin. destruct (L1 _ _ _ Hin) as (_ & S1 & S1'). destruct (L2 _ _ _ Hin) as (_ & S2).
      destruct (L3 _ _ _ Hin) as (_ & _ & (S3 & S3') & _). unfold small_ty.
      split; [auto|]. split; [auto|]. split; [auto|]. destruct t; auto.
    + intros i id t k Hi Hid d Hd. pose proof (nth_error_In _ _ Hi) as Hin.
      unfold uses in Hd. rewrite !in_app_iff in Hd. destruct Hd as [Hd|[Hd|Hd]].
      * destruct (L1 _ _ _ Hin) as (El & _). eapply H1; eauto.
      * destruct (L2 _ _ _ Hin) as (El & _). eapply H2; eauto.
      * destruct (L3 _ _ _ Hin) as (l & El & _ & HI). eapply H3; eauto. apply HI. auto.
  - intros (HN & ((HL1 & HL) & HS) & H). split; [split; [split; [split|]|]|].
    + destruct fs; [simpl in HL1; lia|auto].
    + apply K. auto.
    + apply resolved_iff; auto. split; [auto|]. split.
      * apply map_some_iff. intros t Ht. apply in_types in Ht. destruct Ht as (id & k & Hin).
        exists (len_uses t). apply len_deps_eq; [eapply HP; eauto|]. split; auto.
        destruct (HS _ _ _ Hin) as (S1 & S2 & S3 & S4). split; auto. destruct t; tauto.
      * intros i id t k l Hi Hid El d Hd. pose proof (nth_error_In _ _ Hi) as Hin.
        apply len_deps_eq in El; [|eapply HP; eauto]. destruct El as (_ & ->).
        eapply H; eauto. unfold uses. rewrite !in_app_iff. auto.
    + apply resolved_iff; auto. split; [auto|]. split.
      * apply map_some_iff. intros t Ht. apply in_types in Ht. destruct Ht as (id & k & Hin).
        exists (pred_uses t). apply parse_deps_eq. destruct (HS _ _ _ Hin) as (_ & S2 & _). auto.
      * intros i id t k l Hi Hid El d Hd. apply parse_deps_eq in El. destruct El as (_ & ->).
        eapply H; eauto. unfold uses. rewrite !in_app_iff. auto.
    + apply resolved_iff; auto. split; [auto|]. split.
      * apply map_some_iff. intros t Ht. apply in_types in Ht. destruct Ht as (id & k & Hin).
        apply type_deps_total. destruct (HS _ _ _ Hin) as (_ & _ & S3 & S4). split; auto.
        destruct t; auto. destruct g; tauto.
      * intros i id t k l Hi Hid El d Hd. apply type_deps_facts in El. destruct El as (_ & El).
        eapply H; eauto. unfold uses. rewrite !in_app_iff. right. right. apply El. auto.
Qed.

Lemma firstn_in {A} (l : list A) d : forall i, In d (firstn i l) <->
  exists j, (j < i)%nat /\ nth_error l j = Some d.
Proof.
  induction l as [|a l IH]; intros [|i]; simpl.
  - split; [intros []|intros ([|j] & H & E); discriminate].
  - split; [intros []|intros ([|j] & H & E); discriminate].
  - split; [intros []|intros (j & H & E); lia].
  - rewrite IH. split.
    + intros [->|(j & H & E)]; [exists 0%nat; split; [lia|auto]|exists (S j); split; [lia|auto]].
    + intros ([|j] & H & E); [left; simpl in E; congruence|right; exists j; split; [lia|auto]].
Qed.

Lemma accepted_list_named fs : all_nest_plain fs -> named fs ->
  (list_accepted fs = true <-> NoDup (f_ids fs) /\ small fs /\ uses_earlier_or_itself fs).
Proof.
  intros HP (N1 & N2). rewrite accepted_list_iff by auto. split.
  - intros (HN & HS & H). split; [auto|]. split; [auto|]. intros i id t k d Hi Hd.
    pose proof (nth_error_In _ _ Hi) as Hin. destruct (types_nth _ _ _ _ _ Hi) as (_ & Hn).
    destruct (H i id t k Hi) with (d := d) as (j & Hj & Hle); auto.
    { left. intros ->. apply N1. eapply nth_error_In; eauto. }
    destruct Hj as [(-> & _)|(_ & Hj)]; [exfalso; eapply N2; eauto|].
    destruct (Nat.eq_dec j i) as [->|NE]; [right; congruence|].
    left. apply firstn_in. exists j. split; [lia|auto].
  - intros (HN & HS & H). split; [auto|]. split; [auto|]. intros i id t k Hi _ d Hd.
    pose proof (nth_error_In _ _ Hi) as Hin. destruct (types_nth _ _ _ _ _ Hi) as (_ & Hn).
    assert (d <> EmptyString) as NE by (intros ->; eapply N2; eauto).
    destruct (H i id t k d Hi Hd) as [K| ->].
    + apply firstn_in in K. destruct K as (j & Hj & E). exists j. split; [right; auto|lia].
    + exists i. split; [right; auto|lia].
Qed.

Lemma accepted_list_only fs i id t k d : all_nest_plain fs -> list_accepted fs = true ->
  nth_error (f_list fs) i = Some (id, t, k) -> In d (uses t) ->
  id = EmptyString \/ d = EmptyString \/ d = id \/ In d (firstn i (f_ids fs)).
Proof.
  intros HP HA Hi Hd. apply accepted_list_iff in HA; auto. destruct HA as (HN & HS & H).
  destruct (types_nth _ _ _ _ _ Hi) as (_ & Hn).
  destruct (String.string_dec id EmptyString) as [->|NE]; auto.
  destruct (H i id t k Hi (or_introl NE) d Hd) as (j & [(-> & _)|(_ & Hj)] & Hle); auto.
  destruct (Nat.eq_dec j i) as [->|NJ]; [right; right; left; congruence|].
  right. right. right. apply firstn_in. exists j. split; [lia|auto].
Qed.
