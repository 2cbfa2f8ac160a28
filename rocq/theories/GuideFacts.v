(** * Lemmas about type deduction guides *)
From Coq Require Import Lia ZifyBool ZifyNat.
From Verif Require Import BytesFacts ReadFacts StaticSpec GuideSpec KindFacts StaticMore StaticFacts Static StaticWf.
Local Open Scope list_scope.

Lemma all_some_iff {A} (l : list (option A)) r :
  all_some l = Some r <-> Forall2 (fun o a => o = Some a) l r.
Proof.
  revert r. induction l as [|[a|] l IH]; intros r; cbn.
  - split; [intros [= <-]; constructor|intros H; inversion H; reflexivity].
  - destruct (all_some l) as [r'|] eqn:E; (split; [intros [= <-]|intros H; inversion H; subst]).
    + constructor; [reflexivity|]. apply IH; reflexivity.
    + match goal with H : Some _ = Some _ |- _ => injection H as -> end.
      match goal with H : Forall2 _ l _ |- _ => apply IH in H; injection H as -> end. reflexivity.
    + match goal with H : Forall2 _ l _ |- _ => apply IH in H; discriminate end.
  - split; [discriminate|]. intros H; inversion H; discriminate.
Qed.

Lemma all_some_map {A B} (f : A -> option B) l r :
  all_some (map f l) = Some r <-> Forall2 (fun a b => f a = Some b) l r.
Proof.
  rewrite all_some_iff. revert r. induction l as [|a l IH]; intros r; cbn.
  - split; intros H; inversion H; constructor.
  - split; intros H; inversion H; subst; constructor; auto; apply IH; auto.
Qed.

Lemma F2_impl {A B} (P Q : A -> B -> Prop) l m :
  (forall a b, P a b -> Q a b) -> Forall2 P l m -> Forall2 Q l m.
Proof. intros H F. induction F; constructor; auto. Qed.

Lemma F2_len {A B} (P : A -> B -> Prop) l m : Forall2 P l m -> length l = length m.
Proof. intros F. induction F; cbn; auto. Qed.

Lemma cases_formed other l : forallb is_match_case l = true -> forallb (formed other) l = true ->
  exists c, l = case_list c.
Proof.
  induction l as [|t l IH]; cbn; [exists []; reflexivity|]. rewrite !andb_true_iff.
  intros [H1 H2] [H3 H4]. destruct (IH H2 H4) as [c ->].
  destruct t as [| | |v g| | | | | |]; try discriminate. cbn [formed] in H3.
  destruct g as [| |d o| | | | | | |]; try discriminate. exists ((v, (d, o)) :: c). reflexivity.
Qed.

Lemma branches_formed other l : forallb is_branch l = true -> forallb (formed other) l = true ->
  exists c, l = branch_list c.
Proof.
  induction l as [|t l IH]; cbn; [exists []; reflexivity|]. rewrite !andb_true_iff.
  intros [H1 H2] [H3 H4]. destruct (IH H2 H4) as [c ->].
  destruct t as [| | | |e g| | | | |]; try discriminate. cbn [formed] in H3.
  rewrite !andb_true_iff in H3. destruct H3 as [[[H5 H6] _] _].
  destruct e as [|f [[| ]|] ids| | | | | | | |]; try discriminate.
  destruct g as [| |d o| | | | | | |]; try discriminate.
  exists ((f, ids, (d, o)) :: c). reflexivity.
Qed.

Lemma switch_form other s : formed other s = true -> is_type_switch s = true ->
  exists l, l <> [] /\ s = TSwitch (case_list l).
Proof.
  destruct s as [| | | | |cs| | | |]; try discriminate. cbn [formed]. rewrite !andb_true_iff.
  intros [[H1 H2] H3] _. destruct (cases_formed _ _ H1 H3) as [l ->]. exists l. split; [|reflexivity].
  destruct l; [discriminate|congruence].
Qed.

Lemma ladder_form other s : formed other s = true -> is_type_if_else s = true ->
  exists l, l <> [] /\ s = TIfElse (branch_list l).
Proof.
  destruct s as [| | | | | |cs| | |]; try discriminate. cbn [formed]. rewrite !andb_true_iff.
  intros [[H1 H2] H3] _. destruct (branches_formed _ _ H1 H3) as [l ->]. exists l. split; [|reflexivity].
  destruct l; [discriminate|congruence].
Qed.

Lemma is_switch_cases l : l <> [] -> is_type_switch (TSwitch (case_list l)) = true.
Proof.
  destruct l as [|c l]; [congruence|]. intros _. cbn. induction l; auto.
Qed.

Lemma is_ladder_branches l : l <> [] -> is_type_if_else (TIfElse (branch_list l)) = true.
Proof.
  destruct l as [|c l]; [congruence|]. intros _. cbn. induction l; auto.
Qed.

Lemma guide_is_deduction t : guide_form t -> is_type_deduction t = true.
Proof.
  intros H. inversion H; subst; unfold is_type_deduction; cbn [picked filter matches].
  - apply is_switch_cases; assumption.
  - cbn [is_compute_like]. apply is_switch_cases; assumption.
  - apply is_ladder_branches; assumption.
Qed.

Lemma deduction_iff other t : formed other t = true ->
  (is_type_deduction t = true <-> t = TNoDeduction \/ guide_form t).
Proof.
  intros F. split; [|intros [->|H]; [reflexivity|apply guide_is_deduction; assumption]].
  intros H. destruct t as [| | | | | | |l| |]; try discriminate; auto. right.
  destruct l as [|e [|s [|x l]]]; try discriminate.
  - unfold is_type_deduction in H. cbn [picked filter matches] in H.
    destruct (ladder_form other e) as (c & Hc & ->).
    + cbn in F. rewrite andb_true_r in F. exact F.
    + destruct e; exact H || discriminate H.
    + constructor. exact Hc.
  - cbn [formed forallb] in F. rewrite andb_true_r in F. apply andb_prop in F as [Fe Fs].
    destruct e; unfold is_type_deduction in H; cbn in H; try discriminate;
      destruct (switch_form other s Fs H) as (c & Hc & ->); constructor; exact Hc.
  - unfold is_type_deduction in H. destruct e; cbn in H; discriminate H.
Qed.

Lemma selected_form t :
  (picked t = [PField] <-> exists id s, t = TType [TAccessor id; s]) /\
  (picked t = [PExpr] <-> exists e s, t = TType [e; s] /\ forall id, e <> TAccessor id) /\
  (picked t = [PLadder] <-> exists l, t = TType [l]) /\
  (picked t = [] <-> forall l, t = TType l -> length l <> 1%nat /\ length l <> 2%nat) /\
  (length (picked t) <= 1)%nat.
Proof.
  assert (N : forall t, picked t = [] -> (forall l, t = TType l -> length l <> 1%nat /\ length l <> 2%nat) ->
    (picked t = [PField] <-> exists id s, t = TType [TAccessor id; s]) /\
    (picked t = [PExpr] <-> exists e s, t = TType [e; s] /\ forall id, e <> TAccessor id) /\
    (picked t = [PLadder] <-> exists l, t = TType [l]) /\
    (picked t = [] <-> forall l, t = TType l -> length l <> 1%nat /\ length l <> 2%nat) /\
    (length (picked t) <= 1)%nat).
  { clear t. intros t E D. rewrite E. repeat split; try discriminate; auto; try (apply D; assumption);
      try (cbn; lia).
    - intros (id & s & ->). destruct (D _ eq_refl). cbn in *. congruence.
    - intros (e & s & -> & _). destruct (D _ eq_refl). cbn in *. congruence.
    - intros (l & ->). destruct (D _ eq_refl). cbn in *. congruence. }
  destruct t as [| | | | | | |l| |]; try (apply N; [reflexivity|discriminate]).
  destruct l as [|e [|s [|x l]]].
  - apply N; [reflexivity|]. intros l [= <-]. cbn. auto.
  - assert (E : picked (TType [e]) = [PLadder]) by (destruct e; reflexivity). rewrite E.
    repeat split; try discriminate; eauto; try (cbn; lia).
    + intros (? & ? & ?); discriminate.
    + intros (? & ? & ? & ?); discriminate.
    + intros H. destruct (H _ eq_refl). cbn in *. congruence.
  - assert (E : picked (TType [e; s]) = match e with TAccessor _ => [PField] | _ => [PExpr] end)
      by (destruct e; reflexivity).
    rewrite E. destruct e; repeat split; try discriminate; eauto; try (cbn; lia);
      try (intros (? & ? & ?); discriminate); try (intros (? & ?); discriminate);
      try (intros H; destruct (H _ eq_refl); cbn in *; congruence);
      try (intros _; do 2 eexists; split; [reflexivity|discriminate]).
    intros (e & s' & [= <- <-] & H). exfalso. eapply H. reflexivity.
  - apply N; [destruct e; reflexivity|]. intros l' [= <-]. cbn. lia.
Qed.

(** ** Extraction *)
Lemma to_size_t_iff szw v n : to_size_t szw v = Some n <-> told_apart_by szw v n.
Proof.
  assert (P : (0 < pow256 szw)%Z) by apply pow256_pos. split.
  - destruct v as [s z|w z|c]; cbn.
    + intros [= <-]. rewrite Z.mod_eq by lia.
      replace (z - pow256 szw * (z / pow256 szw))%Z with (z + - (z / pow256 szw) * pow256 szw)%Z by lia.
      apply tb_int. pose proof (Z.mod_pos_bound z _ P). rewrite Z.mod_eq in H by lia. lia.
    + destruct (fdec w z) as [| |m] eqn:E; try discriminate.
      destruct ((0 <=? Z.quot m (2 ^ 1074))%Z && (Z.quot m (2 ^ 1074) <? pow256 szw)%Z) eqn:B; [|discriminate].
      intros [= <-]. apply tb_float with m; [exact E|lia|].
      assert (Q : (0 < 2 ^ 1074)%Z) by (apply Z.pow_pos_nonneg; lia).
      set (d := (2 ^ 1074)%Z) in *. clearbody d.
      destruct (Z.le_gt_cases 0 m).
      * left. rewrite Z.quot_div_nonneg by lia. pose proof (Z.div_mod m d). pose proof (Z.mod_pos_bound m d).
        lia.
      * right. assert (Hq : (Z.quot m d <= 0)%Z).
        { rewrite <- (Z.opp_involutive m), Z.quot_opp_l by lia.
          pose proof (Z.quot_pos (-m) d). lia. }
        pose proof (Z.quot_rem' m d). pose proof (Z.rem_bound_neg_pos m d). split; [lia|].
        assert (E0 : Z.quot m d = 0%Z) by lia. rewrite E0 in H0. lia.
    + discriminate.
  - intros H. inversion H; subst; cbn.
    + f_equal. rewrite <- (Z.mod_add z k) by lia. apply Z.mod_small. assumption.
    + rewrite H0. assert (Q : (0 < 2 ^ 1074)%Z) by (apply Z.pow_pos_nonneg; lia).
      set (d := (2 ^ 1074)%Z) in *. clearbody d.
      assert (E : Z.quot n0 d = n).
      { destruct H2 as [H2|[-> H2]].
        - rewrite Z.quot_div_nonneg by nia. symmetry. apply Z.div_unique with (n0 - n * d)%Z; lia.
        - rewrite <- (Z.opp_involutive n0), Z.quot_opp_l, Z.quot_small by lia. reflexivity. }
      rewrite E. destruct ((0 <=? n)%Z && (n <? pow256 szw)%Z) eqn:B; [reflexivity|lia].
Qed.

Lemma Forall2_map_l {A B C} (f : A -> B) (R : B -> C -> Prop) l r :
  Forall2 R (map f l) r <-> Forall2 (fun a c => R (f a) c) l r.
Proof.
  revert r. induction l as [|a l IH]; intros r; cbn.
  - split; intros H; inversion H; constructor.
  - split; intros H; inversion H; subst; constructor; auto; apply IH; auto.
Qed.

Lemma case_tags other l : all_some (map (case_tag other) (case_list l)) =
  all_some (map (fun d => resolve_tag other (fst d) (snd d)) (map snd l)).
Proof. f_equal. unfold case_list. rewrite !map_map. apply map_ext. intros [v [d o]]. reflexivity. Qed.

Lemma tag_of_cases other l : all_some (map (tag_of other) (case_list l)) =
  all_some (map (fun d => resolve_tag other (fst d) (snd d)) (map snd l)).
Proof. f_equal. unfold case_list. rewrite !map_map. apply map_ext. intros [v [d o]]. reflexivity. Qed.

Lemma branch_tags other l : all_some (map (branch_tag other) (branch_list l)) =
  all_some (map (fun d => resolve_tag other (fst d) (snd d)) (map snd l)).
Proof. f_equal. unfold branch_list. rewrite !map_map. apply map_ext. intros [[f i] [d o]]. reflexivity. Qed.

Lemma tag_of_branches other l : all_some (map (tag_of other) (branch_list l)) =
  all_some (map (fun d => resolve_tag other (fst d) (snd d)) (map snd l)).
Proof. f_equal. unfold branch_list. rewrite !map_map. apply map_ext. intros [[f i] [d o]]. reflexivity. Qed.

Lemma case_values szw l : all_some (map (case_value szw) (case_list l)) =
  all_some (map (to_size_t szw) (map fst l)).
Proof. f_equal. unfold case_list. rewrite !map_map. apply map_ext. intros [v [d o]]. reflexivity. Qed.

Lemma case_list_inj l m : case_list l = case_list m -> l = m.
Proof.
  revert m. induction l as [|[v [d o]] l IH]; intros [|[v' [d' o']] m]; try discriminate; [reflexivity|].
  cbn. intros [= -> -> -> H]. f_equal. apply IH. exact H.
Qed.

Lemma branch_list_inj l m : branch_list l = branch_list m -> l = m.
Proof.
  revert m. induction l as [|[[f i] [d o]] l IH]; intros [|[[f' i'] [d' o']] m]; try discriminate; [reflexivity|].
  cbn. intros [= -> -> -> -> H]. f_equal. apply IH. exact H.
Qed.

Definition tags_of (t : targ) : list (tag * list opt) :=
  let one c := match c with TCase _ (TTag d o) | TBranch _ (TTag d o) => [(d, o)] | _ => [] end in
  match t with
  | TType [_; TSwitch cs] => flat_map one cs
  | TType [TIfElse cs] => flat_map one cs
  | _ => []
  end.

(** Both ways of extracting the alternatives agree on guides. *)
Lemma choices_agree other t : guide_form t ->
  exists tags, tags_are t tags /\
    extract_field_choices other t = all_some (map (fun d => resolve_tag other (fst d) (snd d)) tags) /\
    to_field_choices other t = extract_field_choices other t.
Proof.
  intros H. inversion H; subst; exists (map snd l); (split; [constructor|]); split.
  - apply case_tags.
  - cbn [to_field_choices picked filter matches extract_field_choices]. cbn.
    rewrite case_tags. apply tag_of_cases.
  - apply case_tags.
  - cbn. rewrite case_tags. apply tag_of_cases.
  - apply branch_tags.
  - cbn. rewrite branch_tags. apply tag_of_branches.
Qed.

Lemma tags_are_fun t a b : tags_are t a -> tags_are t b -> a = b.
Proof.
  intros Ha Hb. inversion Ha; subst; inversion Hb; subst.
  - f_equal. symmetry. apply case_list_inj. assumption.
  - f_equal. symmetry. apply branch_list_inj. assumption.
Qed.

Lemma values_are_fun t a b : values_are t a -> values_are t b -> a = b.
Proof.
  intros Ha Hb. inversion Ha; subst; inversion Hb; subst.
  - f_equal. symmetry. apply case_list_inj. assumption.
  - reflexivity.
Qed.

Lemma values_agree szw t : guide_form t ->
  exists vs, values_are t vs /\ extract_match_values szw t = all_some (map (to_size_t szw) vs).
Proof.
  intros H. inversion H; subst.
  - exists (map fst l). split; [constructor|]. apply case_values.
  - exists (map fst l). split; [constructor|]. apply case_values.
  - exists []. split; [constructor|reflexivity].
Qed.

Lemma no_deduction_refused szw other tid opts : variance szw other tid TNoDeduction opts = None.
Proof. unfold variance. cbn. destruct (pack_ok opts && only is_constr opts); reflexivity. Qed.

Lemma variance_iff szw other tid t opts ps : formed other t = true ->
  (variance szw other tid t opts = Some ps <->
   guide_form t /\
   (exists tags, tags_are t tags /\
      Forall2 (fun d p => resolve_tag other (fst d) (snd d) = Some p) tags ps) /\
   NoDup (map (fun p => tid (p_type p)) ps) /\
   (exists vs ns, values_are t vs /\ Forall2 (told_apart_by szw) vs ns /\ NoDup ns) /\
   (opts = [] \/ exists k, opts = [OptConstr k])).
Proof.
  intros F. split.
  - intros H. assert (G : guide_form t).
    { unfold variance in H. destruct (is_type_deduction t) eqn:D; [|discriminate].
      apply (deduction_iff other) in D; [|exact F]. destruct D as [->|D]; [|exact D].
      change (variance szw other tid TNoDeduction opts = Some ps) in H.
      rewrite no_deduction_refused in H. discriminate. }
    split; [exact G|]. unfold variance in H. rewrite (guide_is_deduction t G) in H. cbn [andb] in H.
    destruct (pack_ok opts) eqn:E1; [|discriminate]. destruct (only is_constr opts) eqn:E2; [|discriminate].
    cbn [andb] in H.
    destruct (choices_agree other t G) as (tags & Ht & E3 & E4). rewrite E4 in H.
    destruct (values_agree szw t G) as (vs & Hv & E5).
    destruct (extract_field_choices other t) as [qs|] eqn:E6; [|discriminate].
    destruct (extract_match_values szw t) as [ns|] eqn:E7; [|discriminate].
    destruct (unique_iff Z.eqb Z.eqb_eq (map (fun p => tid (p_type p)) qs)) as (b & Eb & Hb).
    rewrite Eb in H. destruct b; [|discriminate].
    destruct (unique_iff Z.eqb Z.eqb_eq ns) as (b & Eb' & Hb'). rewrite Eb' in H.
    destruct b; [|discriminate]. injection H as <-.
    split; [|split; [|split]].
    + exists tags. split; [exact Ht|]. apply all_some_map. symmetry. exact E3.
    + apply Hb. reflexivity.
    + exists vs, ns. split; [exact Hv|]. split; [|apply Hb'; reflexivity].
      symmetry in E5. apply all_some_map in E5. eapply F2_impl; [|exact E5].
      intros v n. apply to_size_t_iff.
    + apply constr_only_iff. auto.
  - intros (G & (tags & Ht & Hp) & N1 & (vs & ns & Hv & Hn & N2) & Ho).
    unfold variance. rewrite (guide_is_deduction t G). cbn [andb].
    apply constr_only_iff in Ho. destruct Ho as [-> ->]. cbn [andb].
    destruct (choices_agree other t G) as (tags' & Ht' & E3 & E4).
    rewrite (tags_are_fun _ _ _ Ht' Ht) in E3. rewrite (proj2 (all_some_map _ _ _) Hp) in E3.
    rewrite E4, E3.
    destruct (values_agree szw t G) as (vs' & Hv' & E5). rewrite (values_are_fun _ _ _ Hv' Hv) in E5.
    assert (E6 : all_some (map (to_size_t szw) vs) = Some ns).
    { apply all_some_map. eapply F2_impl; [|exact Hn]. intros v n. apply to_size_t_iff. }
    rewrite E5, E6.
    destruct (unique_iff Z.eqb Z.eqb_eq (map (fun p => tid (p_type p)) ps)) as (b & -> & Hb).
    rewrite (proj2 Hb N1).
    destruct (unique_iff Z.eqb Z.eqb_eq ns) as (b' & -> & Hb'). rewrite (proj2 Hb' N2). reflexivity.
Qed.

(** ** Dependencies *)
Lemma clauses l : all_some (map clause_ids (branch_list l)) = Some (map (fun b => snd (fst b)) l).
Proof.
  induction l as [|[[f i] [d o]] l IH]; [reflexivity|]. unfold branch_list in *. cbn.
  rewrite IH. reflexivity.
Qed.

Lemma dependencies_form t : guide_form t ->
  exists ids, extract_dependencies t = Some ids /\ forall id, In id ids <-> consults t id.
Proof.
  intros H. inversion H; subst.
  - exists [id]. split; [reflexivity|]. intros i. split.
    + intros [<-|[]]. constructor.
    + intros C. inversion C; subst. left. reflexivity.
  - exists ids. split; [reflexivity|]. intros i. split.
    + intros I. constructor. exact I.
    + intros C. inversion C; subst. assumption.
  - exists (concat (map (fun b => snd (fst b)) l)). split.
    + cbn [extract_dependencies]. clear H H0.
      rewrite clauses. reflexivity.
    + intros i. split.
      * rewrite in_concat. intros (ids & Hi & I). apply in_map_iff in Hi as ([[f i'] [d o]] & <- & Hb).
        cbn in I. apply co_ladder with f (RInt SBool) i' (TTag d o); [exact I|].
        unfold branch_list. apply in_map_iff. exists (f, i', (d, o)). split; [reflexivity|exact Hb].
      * intros C. inversion C; subst. apply in_concat. exists ids. split; [|assumption].
        match goal with Hx : In (TBranch _ _) (branch_list l) |- _ =>
          unfold branch_list in Hx; apply in_map_iff in Hx as ([[f' i'] [d o]] & E & Hb) end.
        cbn in E. injection E as -> _ -> _. apply in_map_iff. exists (f, ids, (d, o)). auto.
Qed.

Lemma discriminants_form t id : In id (extract_discriminants t) <-> exists s, t = TType [TAccessor id; s].
Proof.
  split.
  - destruct t as [| | | | | | |l| |]; cbn; try contradiction.
    destruct l as [|e [|s [|x l]]]; cbn; try contradiction; destruct e; cbn; try contradiction.
    intros [<-|[]]. eauto.
  - intros [s ->]. left. reflexivity.
Qed.

(** ** The guide of the model *)
Lemma to_case_cons v d l : all_some (map to_case (case_list ((v, d) :: l))) =
  match v with
  | MInt s z => option_map (cons (s, z)) (all_some (map to_case (case_list l)))
  | _ => None
  end.
Proof. destruct v, d; reflexivity. Qed.

Lemma to_branch_cons f i d l : all_some (map to_branch (branch_list ((f, i, d) :: l))) =
  option_map (cons ((fun vs => negb (f vs =? 0)%Z), i)) (all_some (map to_branch (branch_list l))).
Proof. destruct d; reflexivity. Qed.

Lemma to_guide_variance szw other tid disc id t g opts ps : formed other t = true ->
  variance szw other tid t opts = Some ps -> to_guide disc t = Some g ->
  resolve_variance szw tid id g ps opts = Some (CUnion id g ps (constr_in_pack opts)) /\
  extract_dependencies t = Some (guide_ids g) /\
  match g with GField _ _ cs | GComp _ _ _ cs => length cs = length ps | GLadder bs => length bs = length ps end.
Proof.
  intros F V T. apply variance_iff in V; [|exact F].
  destruct V as (G & (tags & Ht & Hp) & N1 & (vs & ns & Hv & Hn & N2) & Ho).
  assert (C : forall l cs, all_some (map to_case (case_list l)) = Some cs ->
    Forall2 (told_apart_by szw) (map fst l) ns ->
    length cs = length l /\ map (fun sv => (snd sv mod pow256 szw)%Z) cs = ns).
  { clear. intros l. revert ns. induction l as [|[v [d o]] l IH]; intros ns cs H Hn.
    - cbn in *. injection H as <-. inversion Hn. auto.
    - rewrite to_case_cons in H. inversion Hn as [|? n ? ns' H1 H2 E1]; subst.
      destruct v as [s z| |]; try discriminate.
      destruct (all_some (map to_case (case_list l))) as [cs'|] eqn:E; [|discriminate].
      injection H as <-. destruct (IH ns' cs' eq_refl H2) as [L M]. cbn. rewrite L, M. split; [reflexivity|].
      f_equal. cbn in H1. apply to_size_t_iff in H1. cbn in H1. injection H1 as <-. reflexivity. }
  assert (B : forall l bs, all_some (map to_branch (branch_list l)) = Some bs ->
    map snd bs = map (fun b => snd (fst b)) l).
  { clear. induction l as [|[[f i] d] l IH]; intros bs H; [injection H as <-; reflexivity|].
    rewrite to_branch_cons in H.
    destruct (all_some (map to_branch (branch_list l))) as [bs'|] eqn:E; [|discriminate].
    injection H as <-. cbn. f_equal. apply IH. reflexivity. }
  pose proof (F2_len _ _ _ Hp) as Lp.
  inversion G; subst.
  - pose proof (tags_are_fun _ _ _ Ht (ta_switch _ _)) as ->.
    pose proof (values_are_fun _ _ _ Hv (va_switch _ _)) as ->. cbn in T.
    destruct (disc id0) as [s|]; [|discriminate].
    destruct (all_some (map to_case (case_list l))) as [cs|] eqn:E; [|discriminate].
    injection T as <-. destruct (C _ _ E Hn) as [L M]. split; [|split; [reflexivity|]].
    + apply resolve_variance_iff. destruct Ho as [->|[k ->]]; [exists CNone|exists k];
        cbn [match_values_of constr_in_pack]; (split; [auto|]); (split; [reflexivity|]);
        (split; [exact N1|]); rewrite <- M in N2; exact N2.
    + rewrite L. rewrite map_length in Lp. exact Lp.
  - pose proof (tags_are_fun _ _ _ Ht (ta_switch _ _)) as ->.
    pose proof (values_are_fun _ _ _ Hv (va_switch _ _)) as ->. cbn in T.
    destruct r as [r|]; [|discriminate].
    destruct (all_some (map to_case (case_list l))) as [cs|] eqn:E; [|discriminate].
    injection T as <-. destruct (C _ _ E Hn) as [L M]. split; [|split; [reflexivity|]].
    + apply resolve_variance_iff. destruct Ho as [->|[k ->]]; [exists CNone|exists k];
        cbn [match_values_of constr_in_pack]; (split; [auto|]); (split; [reflexivity|]);
        (split; [exact N1|]); rewrite <- M in N2; exact N2.
    + rewrite L. rewrite map_length in Lp. exact Lp.
  - pose proof (tags_are_fun _ _ _ Ht (ta_ladder _)) as ->. cbn in T.
    destruct (all_some (map to_branch (branch_list l))) as [bs|] eqn:E; [|discriminate].
    injection T as <-. split; [|split].
    + apply resolve_variance_iff. destruct Ho as [->|[k ->]]; [exists CNone|exists k];
        cbn; (split; [auto|]); (split; [reflexivity|]); (split; [exact N1|]); constructor.
    + destruct (dependencies_form _ G) as (ids & E2 & _). cbn [extract_dependencies] in *.
      pose proof (B _ _ E) as HB. cbn [guide_ids]. rewrite HB. clear.
      rewrite clauses. reflexivity.
    + pose proof (f_equal (@length _) (B _ _ E)) as LB. rewrite !map_length in LB. rewrite map_length in Lp. lia.
Qed.

(** Which guides have a counterpart in the model. *)
Lemma to_guide_defined disc t : guide_form t ->
  ((exists g, to_guide disc t = Some g) <->
   (forall id s, t = TType [TAccessor id; s] -> disc id <> None) /\
   (forall f n ids s, t <> TType [TCompute f (ROther n) ids; s]) /\
   (forall vs, values_are t vs -> Forall (fun v => exists s z, v = MInt s z) vs)).
Proof.
  intros G.
  assert (C : forall l, (exists cs, all_some (map to_case (case_list l)) = Some cs) <->
    Forall (fun v => exists s z, v = MInt s z) (map fst l)).
  { clear. induction l as [|[v d] l IH].
    - cbn. split; [constructor|eauto].
    - rewrite to_case_cons. cbn [map fst]. split.
      + intros [cs H]. destruct v as [s z| |]; try discriminate. constructor; [eauto|].
        apply IH. destruct (all_some (map to_case (case_list l))); [eauto|discriminate].
      + intros H. inversion H as [|? ? (s & z & ->) H2]; subst. apply IH in H2 as [cs ->]. cbn. eauto. }
  destruct G as [id l Hl|f r ids l Hl|l Hl].
  - cbn. split.
    + intros [g H]. destruct (disc id) as [s|] eqn:D; [|discriminate].
      split; [intros ? ? [= <- <-]; congruence|]. split; [discriminate|].
      intros vs Hv. pose proof (values_are_fun _ _ _ Hv (va_switch _ _)) as ->. apply C.
      destruct (all_some (map to_case (case_list l))); [eauto|discriminate].
    + intros (D & _ & H). specialize (H _ (va_switch _ _)). apply C in H as [cs ->].
      destruct (disc id) eqn:E; [eauto|]. exfalso. eapply D; eauto.
  - cbn. split.
    + intros [g H]. split; [discriminate|]. split; [intros ? ? ? ? [= -> -> -> <-]; discriminate|].
      intros vs Hv. pose proof (values_are_fun _ _ _ Hv (va_switch _ _)) as ->. apply C.
      destruct r; [|discriminate]. destruct (all_some (map to_case (case_list l))); [eauto|discriminate].
    + intros (_ & D & H). specialize (H _ (va_switch _ _)). apply C in H as [cs E].
      destruct r as [r|n]; [rewrite E; cbn; eauto|]. exfalso. eapply D. reflexivity.
  - cbn. split.
    + intros _. split; [discriminate|]. split; [discriminate|].
      intros vs Hv. pose proof (values_are_fun _ _ _ Hv (va_ladder _)) as ->. constructor.
    + intros _. assert (B : exists bs, all_some (map to_branch (branch_list l)) = Some bs).
      { clear. induction l as [|[[f i] d] l [bs IH]]; [exists []; reflexivity|].
        rewrite to_branch_cons, IH. cbn. eauto. }
      destruct B as [bs ->]. cbn. eauto.
Qed.

(** ** Deduction *)
Lemma cases_nth l cs : all_some (map to_case (case_list l)) = Some cs ->
  length cs = length l /\
  forall i s z, nth_error cs i = Some (s, z) <-> exists d, nth_error l i = Some (MInt s z, d).
Proof.
  revert cs. induction l as [|[v d] l IH]; intros cs H.
  - injection H as <-. split; [reflexivity|]. intros [|i] s z; cbn; split; try discriminate; intros [? ?]; discriminate.
  - rewrite to_case_cons in H. destruct v as [s' z'| |]; try discriminate.
    destruct (all_some (map to_case (case_list l))) as [cs'|]; [|discriminate]. injection H as <-.
    destruct (IH _ eq_refl) as [L N]. split; [cbn; congruence|].
    intros [|i] s z; cbn; [|apply N]. split.
    + intros [= -> ->]. eauto.
    + intros [d' [= -> -> _]]. reflexivity.
Qed.

Lemma cases_ints l cs : all_some (map to_case (case_list l)) = Some cs ->
  forall i v d, nth_error l i = Some (v, d) -> exists s z, v = MInt s z /\ nth_error cs i = Some (s, z).
Proof.
  revert cs. induction l as [|[v d] l IH]; intros cs H i v' d' Hi; [destruct i; discriminate|].
  rewrite to_case_cons in H. destruct v as [s' z'| |]; try discriminate.
  destruct (all_some (map to_case (case_list l))) as [cs'|]; [|discriminate]. injection H as <-.
  destruct i as [|i]; cbn in Hi |- *.
  - injection Hi as <- _. eauto.
  - exact (IH _ eq_refl _ _ _ Hi).
Qed.

Lemma first_case_iff s z l cs i : all_some (map to_case (case_list l)) = Some cs ->
  (first_case s z cs i <->
   exists v d, nth_error l i = Some (v, d) /\ value_equals s z v /\
     forall j v' d', (j < i)%nat -> nth_error l j = Some (v', d') -> ~ value_equals s z v').
Proof.
  intros H. destruct (cases_nth _ _ H) as [_ N]. pose proof (cases_ints _ _ H) as I. split.
  - intros [([s' z'] & E & V) F]. apply N in E as [d E]. exists (MInt s' z'), d.
    split; [exact E|]. split; [exists s', z'; auto|].
    intros j v' d' J Ej (s2 & z2 & -> & V2).
    assert (Q : nth_error cs j = Some (s2, z2)) by (apply N; eauto).
    specialize (F _ _ J Q). cbn in F. congruence.
  - intros (v & d & E & (s' & z' & -> & V) & F). split.
    + exists (s', z'). split; [apply N; eauto|exact V].
    + intros j [s2 z2] J Ej. apply N in Ej as [d2 Ej]. cbn.
      destruct (cxx_eq s z s2 z2) eqn:Q; [|reflexivity].
      exfalso. eapply F; eauto. exists s2, z2. auto.
Qed.

Lemma branches_nth l bs : all_some (map to_branch (branch_list l)) = Some bs ->
  forall i, nth_error bs i = option_map (fun b => ((fun vs => negb (fst (fst b) vs =? 0)%Z), snd (fst b))) (nth_error l i).
Proof.
  revert bs. induction l as [|[[f ids] d] l IH]; intros bs H i.
  - injection H as <-. destruct i; reflexivity.
  - rewrite to_branch_cons in H.
    destruct (all_some (map to_branch (branch_list l))) as [bs'|]; [|discriminate]. injection H as <-.
    destruct i; [reflexivity|]. cbn. apply IH. reflexivity.
Qed.

Lemma guide_leads disc E t g i : guide_form t -> to_guide disc t = Some g ->
  (deduce_type E g = Some (Some i) <-> leads_to disc E t i).
Proof.
  intros G T. rewrite deduce_type_iff. destruct G as [id l Hl|f r ids l Hl|l Hl]; cbn in T.
  - destruct (disc id) as [s|] eqn:D; [|discriminate].
    destruct (all_some (map to_case (case_list l))) as [cs|] eqn:A; [|discriminate]. injection T as <-.
    cbn [selects]. split.
    + intros (z & Z & F). apply (first_case_iff _ _ _ _ _ A) in F as (v & d & E1 & E2 & E3).
      econstructor; eauto.
    + intros L. inversion L as [id' s' z l' i' v d E1 E2 E3 E4 E5 E6| |]; subst.
      match goal with H : case_list _ = case_list _ |- _ => apply case_list_inj in H; subst end.
      exists z. split; [exact E2|]. rewrite E1 in D. injection D as <-.
      apply (first_case_iff _ _ _ _ _ A). eauto.
  - destruct r as [r|]; [|discriminate].
    destruct (all_some (map to_case (case_list l))) as [cs|] eqn:A; [|discriminate]. injection T as <-.
    cbn [selects]. split.
    + intros (vs & V & F). apply (first_case_iff _ _ _ _ _ A) in F as (v & d & E1 & E2 & E3).
      econstructor; eauto.
    + intros L. inversion L as [|f' r' ids' vs l' i' v d E2 E3 E4 E5 E6|]; subst.
      match goal with H : case_list _ = case_list _ |- _ => apply case_list_inj in H; subst end.
      exists vs. split; [exact E2|]. apply (first_case_iff _ _ _ _ _ A). eauto.
  - destruct (all_some (map to_branch (branch_list l))) as [bs|] eqn:A; [|discriminate]. injection T as <-.
    pose proof (branches_nth _ _ A) as N. cbn [selects]. split.
    + intros [(p & ids & vs & E1 & E2 & E3) F]. rewrite N in E1.
      destruct (nth_error l i) as [[[f ids'] d]|] eqn:E4; [|discriminate]. injection E1 as <- <-.
      cbn in E3. econstructor; eauto; [lia|].
      intros j f' ids2 d' J Ej. specialize (F j (fun vs => negb (f' vs =? 0)%Z) ids2 J).
      rewrite N, Ej in F. destruct (F eq_refl) as (vs' & E5 & E6). exists vs'. split; [exact E5|lia].
    + intros L. inversion L as [| |l' i' f ids vs d E1 E2 E3 E4 E5]; subst.
      match goal with H : branch_list _ = branch_list _ |- _ => apply branch_list_inj in H; subst end.
      split.
      * exists (fun vs => negb (f vs =? 0)%Z), ids, vs. rewrite N, E1. split; [reflexivity|].
        split; [exact E2|]. lia.
      * intros j p ids' J Ej. rewrite N in Ej.
        destruct (nth_error l j) as [[[f' ids2] d']|] eqn:E6; [|discriminate]. injection Ej as <- <-.
        destruct (E4 _ _ _ _ J E6) as (vs' & E7 & E8). exists vs'. split; [exact E7|cbn; lia].
Qed.

(** ** What can be written down. *)
Lemma formed_iff other : forall t, formed other t = true <->
  written (fun d o => exists p, resolve_tag other d o = Some p) t.
Proof.
  set (ok := fun d o => exists p, resolve_tag other d o = Some p).
  assert (TG : forall d o, formed other (TTag d o) = true <-> ok d o).
  { intros d o. unfold ok. cbn [formed]. destruct (resolve_tag other d o) as [p|]; split; eauto; [discriminate|].
    intros (p & H). discriminate. }
  assert (CA : forall c, is_match_case c && formed other c = true <-> exists v d o, c = TCase v (TTag d o) /\ ok d o).
  { intros c. split.
    - destruct c as [| | |v g| | | | | |]; try discriminate. change (is_type_tag g && formed other g = true -> exists v' d o, TCase v g = TCase v' (TTag d o) /\ ok d o).
      destruct g; try discriminate. simpl is_type_tag. rewrite andb_true_l, TG. eauto 6.
    - intros (v & d & o & -> & H). apply TG in H. cbn in *. exact H. }
  assert (BR : forall c, is_branch c && formed other c = true <->
    exists f ids d o, c = TBranch (TCompute f (RInt SBool) ids) (TTag d o) /\ ok d o).
  { intros c. split.
    - destruct c as [| | | |e g| | | | |]; try discriminate.
      change (is_eval_bool e && is_type_tag g && formed other e && formed other g = true ->
        exists f ids d o, TBranch e g = TBranch (TCompute f (RInt SBool) ids) (TTag d o) /\ ok d o).
      destruct e as [|f [[]|] ids| | | | | | | |]; try discriminate. destruct g; try discriminate.
      cbn [is_eval_bool is_type_tag andb]. change (formed other (TCompute f (RInt SBool) ids)) with true.
      rewrite andb_true_l, TG. eauto 8.
    - intros (f & ids & d & o & -> & H). apply TG in H. cbn in *. exact H. }
  fix IH 1. intros t. destruct t as [id|f r ids|d o|v g|e g|l|l|l| |n].
  - split; [constructor|reflexivity].
  - split; [constructor|reflexivity].
  - rewrite TG. split; [constructor; auto|]. intros H. inversion H. auto.
  - specialize (CA (TCase v g)). cbn [is_match_case andb] in CA. rewrite CA. split.
    + intros (v' & d & o & [= -> ->] & H). constructor. auto.
    + intros H. inversion H. eauto 6.
  - specialize (BR (TBranch e g)). cbn [is_branch andb] in BR. rewrite BR. split.
    + intros (f & ids & d & o & [= -> ->] & H). constructor. auto.
    + intros H. inversion H. eauto 8.
  - cbn [formed]. rewrite !andb_true_iff, !forallb_forall, negb_true_iff, Nat.eqb_neq, length_zero_iff_nil. split.
    + intros [[H1 H2] H3]. constructor; auto. intros c Hc. apply CA. rewrite H1, H3 by auto. reflexivity.
    + intros H. inversion H as [| | | | | | |l' N C| |]. subst l'.
      assert (K : forall c, In c l -> is_match_case c && formed other c = true) by (intros c Hc; apply CA; auto).
      repeat split; auto; intros c Hc; apply K in Hc; apply andb_prop in Hc; tauto.
  - cbn [formed]. rewrite !andb_true_iff, !forallb_forall, negb_true_iff, Nat.eqb_neq, length_zero_iff_nil. split.
    + intros [[H1 H2] H3]. constructor; auto. intros c Hc. apply BR. rewrite H1, H3 by auto. reflexivity.
    + intros H. inversion H as [| | | | | | | |l' N C|]. subst l'.
      assert (K : forall c, In c l -> is_branch c && formed other c = true) by (intros c Hc; apply BR; auto).
      repeat split; auto; intros c Hc; apply K in Hc; apply andb_prop in Hc; tauto.
  - cbn [formed]. assert (G : forallb (formed other) l = true <-> forall t, In t l -> written ok t).
    { clear TG CA BR. induction l as [|a l IHl]; simpl; [split; [intros _ ? []|auto]|]. rewrite andb_true_iff, IHl, (IH a). split.
      - intros [H1 H2] t [<-|H]; auto.
      - intros H. split; auto. }
    rewrite G. split; [constructor; auto|]. intros H. inversion H. auto.
  - split; [constructor|reflexivity].
  - split; [constructor|reflexivity].
Qed.
