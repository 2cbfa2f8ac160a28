(** * Facts about the selection of specialisations *)
From Coq Require Import String Lia ZifyBool ZifyNat.
From Verif Require Import BytesFacts StaticFacts StaticSpec StaticWf StaticMore KindSpec.
Local Open Scope list_scope.

(** ** The traits *)

Lemma arithmetic_number : forall t, x_arithmetic t = true <-> number t.
Proof.
  intros t; split; intros H.
  - destruct t; try discriminate; constructor.
  - destruct H; reflexivity.
Qed.

Lemma fixed_array_nest : forall t, x_fixed_array t = true <-> std_nest t.
Proof.
  induction t; cbn [x_fixed_array]; split; intros H; try discriminate; try solve [inversion H].
  - apply Bool.orb_prop in H as [H|H].
    + apply sn_num, arithmetic_number, H.
    + apply sn_arr, IHt, H.
  - inversion H; subst.
    + apply arithmetic_number in H1. rewrite H1. reflexivity.
    + apply IHt in H1. rewrite H1. apply Bool.orb_true_r.
Qed.

Lemma c_array_nest : forall t, x_c_array t = true <-> c_nest t.
Proof.
  induction t; cbn [x_c_array]; split; intros H; try discriminate; try solve [inversion H].
  - apply Bool.orb_prop in H as [H|H].
    + apply cn_num, arithmetic_number, H.
    + apply cn_arr, IHt, H.
  - inversion H; subst.
    + apply arithmetic_number in H1. rewrite H1. reflexivity.
    + apply IHt in H1. rewrite H1. apply Bool.orb_true_r.
Qed.

(** ** One specialisation *)

Ltac bools :=
  repeat match goal with
  | H : _ && _ = true |- _ => apply andb_prop in H as [? ?]
  end.

Lemma is_kind_unique : forall f k k', is_kind k f = true -> is_kind k' f = true -> k = k'.
Proof.
  intros f k k' H H'.
  destruct f as [id [t sz c b] | base pr ids | id g ps c]; cbn in H, H'.
  - destruct k, k'; try reflexivity; cbn in H, H'; try discriminate; bools;
      destruct sz; try discriminate; destruct t; try discriminate;
      match goal with t : cxx |- _ => destruct t; discriminate end.
  - destruct base; [destruct k, k'| |]; try reflexivity; discriminate.
  - destruct k, k'; try reflexivity; discriminate.
Qed.

Lemma all_kinds_all : forall k, In k all_kinds.
Proof. intros []; cbn; tauto. Qed.

Lemma all_kinds_nodup : NoDup all_kinds.
Proof. repeat constructor; cbn; intuition discriminate. Qed.

Lemma filter_one : forall {A} (p : A -> bool) l,
  NoDup l -> (forall a b, In a l -> In b l -> p a = true -> p b = true -> a = b) ->
  filter p l = [] \/ exists a, filter p l = [a] /\ In a l /\ p a = true.
Proof.
  intros A p l Hnd. induction Hnd as [|a l Ha Hnd IH]; intros Hu; [left; reflexivity|].
  destruct IH as [IH|(b & IH & Hb & Hp)]; [intros x y Hx Hy; apply Hu; right; assumption| |].
  - cbn. rewrite IH. destruct (p a) eqn:E; [right; exists a|left; reflexivity].
    repeat split; [left; reflexivity|assumption].
  - cbn. rewrite IH. destruct (p a) eqn:E.
    + exfalso. apply Ha. rewrite (Hu a b); auto; [left; reflexivity|right; assumption].
    + right. exists b. repeat split; [right|]; assumption.
Qed.

Lemma specialisations_one : forall f,
  field_like f = true <-> exists k, specialisations f = [k].
Proof.
  intros f. unfold field_like, specialisations. split.
  - intros H. apply existsb_exists in H as (k & Hin & Hk).
    destruct (filter_one (fun k => is_kind k f) all_kinds all_kinds_nodup
                (fun a b _ _ => is_kind_unique f a b)) as [E|(a & E & _)].
    + exfalso. assert (In k []) as []. rewrite <- E. apply filter_In. auto.
    + exists a. exact E.
  - intros (k & E). apply existsb_exists. exists k.
    assert (In k (filter (fun k => is_kind k f) all_kinds)) as H by (rewrite E; left; reflexivity).
    apply filter_In in H. exact H.
Qed.

Lemma selected : forall f k, is_kind k f = true -> specialisations f = [k].
Proof.
  intros f k H.
  destruct (proj1 (specialisations_one f)) as (k' & E).
  - unfold field_like. apply existsb_exists. exists k. auto using all_kinds_all.
  - rewrite E. f_equal. apply (is_kind_unique f k' k); [|exact H].
    assert (In k' (specialisations f)) as Hi by (rewrite E; left; reflexivity).
    apply filter_In in Hi. apply Hi.
Qed.

Lemma specialised_like : forall f k, specialisations f = [k] -> is_kind k f = true.
Proof.
  intros f k E. assert (In k (specialisations f)) as Hi by (rewrite E; left; reflexivity).
  apply filter_In in Hi. apply Hi.
Qed.

Lemma size_form_unique : forall s m m',
  size_matches m s = true -> size_matches m' s = true -> m = m'.
Proof.
  intros s m m' H H'. destruct s as [|l| |]; try destruct l; destruct m, m'; cbn in *;
    try reflexivity; discriminate.
Qed.

Lemma size_form_exists : forall id p k,
  specialisations (CField id p) = [k] -> k = KFixed \/ k = KVariable ->
  exists m, In m deduce_forms /\ size_matches m (p_size p) = true.
Proof.
  intros id p k E Hk. apply specialised_like in E. cbn in E.
  destruct p as [t sz c b].
  destruct Hk as [-> | ->]; cbn in *; bools; destruct sz as [|l| |]; try discriminate.
  - exists SFFixed. split; [left; reflexivity|reflexivity].
  - destruct l; [exists SFField|exists SFComputed]; cbn; tauto.
Qed.

(** ** Descriptors *)

Lemma x_record_eq : forall t, x_record t = true -> exists fs, t = XRecord fs.
Proof. intros [] H; try discriminate. eexists. reflexivity. Qed.

Lemma like_kind : forall f k, is_kind k f = true -> field_like f = true.
Proof.
  intros f k H. apply existsb_exists. exists k. auto using all_kinds_all.
Qed.

Lemma like_cases : forall id t sz c b,
  field_like (CField id (mkPlain t sz c b)) = true <->
  (x_containable t = true /\ sz_fixed sz = true) \/
  (x_variable_buffer t = true /\ sz_variable sz = true) \/
  (exists e n, t = XArray e n /\ x_record e = true) \/
  (exists e, t = XVector e /\ x_record e = true) \/
  x_record t = true.
Proof.
  intros. split.
  - intros H. apply existsb_exists in H as (k & _ & H). cbn in H.
    destruct k; cbn in H; bools; try discriminate; try tauto.
    + destruct t; try discriminate. right; right; left. eauto.
    + destruct t; try discriminate. right; right; right; left. eauto.
  - intros [[H1 H2]|[[H1 H2]|[(e & n & -> & H)|[(e & -> & H)|H]]]].
    + apply (like_kind _ KFixed). cbn. rewrite H1, H2. reflexivity.
    + apply (like_kind _ KVariable). cbn. rewrite H1, H2. reflexivity.
    + apply (like_kind _ KArrayOfRecords). exact H.
    + apply (like_kind _ KVectorOfRecords). exact H.
    + apply (like_kind _ KStruct). exact H.
Qed.

Lemma resolve_like : forall sgn other d opts p id,
  resolve sgn other d opts = Some p ->
  (field_like (CField id p) = true <-> supported d).
Proof.
  intros sgn other d opts p id H. unfold resolve in H.
  destruct (negb (pack_ok opts)); [discriminate|].
  assert (G : forall (b : bool) q, (if b then Some q else None) = Some p ->
              b = true /\ q = p) by (intros [] q E; inversion E; auto).
  destruct d; cbn [supported];
    try match type of H with
        | match ?x with SzBytes _ => _ | _ => _ end = _ => destruct x; try discriminate
        end;
    apply G in H as [Hb <-]; bools; rewrite like_cases.
  - split; [tauto|]. intros _. left. unfold x_containable, x_arithmetic.
    rewrite H, !Bool.orb_true_r. auto.
  - unfold x_containable, x_fixed_buffer, x_variable_buffer. cbn.
    rewrite <- arithmetic_number, <- fixed_array_nest. split.
    + intros [[E _]|[[E _]|[(e & m & E & Er)|[(e & E & Er)|E]]]]; try discriminate.
      * destruct (x_arithmetic t); [left; reflexivity|].
        destruct (x_fixed_array t); [right; reflexivity|discriminate].
      * injection E as <- <-. destruct (x_record_eq _ Er) as [fs ->]. discriminate.
    + intros [E|E]; rewrite E, ?Bool.orb_true_r; auto.
  - split; [tauto|]. intros _. right; right; left. eauto.
  - split; [tauto|]. intros _. left. auto.
  - unfold x_containable, x_fixed_buffer, x_variable_buffer. cbn.
    rewrite <- arithmetic_number, <- c_array_nest. split.
    + intros [[E _]|[[E _]|[(e & m & E & Er)|[(e & E & Er)|E]]]]; try discriminate.
      destruct (x_arithmetic t); [left; reflexivity|].
      destruct (x_c_array t); [right; reflexivity|discriminate].
    + intros [E|E]; rewrite E, ?Bool.orb_true_r; auto.
  - split; [tauto|]. intros _. left. auto.
  - split; [tauto|]. intros _. left. auto.
  - split; [tauto|]. intros _. left. auto.
  - split; [tauto|]. intros _. left. unfold x_containable, x_arithmetic.
    rewrite H, !Bool.orb_true_r. auto.
  - unfold x_containable, x_fixed_buffer, x_variable_buffer. cbn.
    rewrite <- arithmetic_number, <- fixed_array_nest. split.
    + intros [[E _]|[[E _]|[(e & m & E & Er)|[(e & E & Er)|E]]]]; try discriminate.
      * destruct (x_arithmetic t); [left; reflexivity|].
        destruct (x_fixed_array t); [right; left; reflexivity|discriminate].
      * injection E as <-. apply x_record_eq in Er. auto.
    + intros [E|[E|[fs E]]].
      * rewrite E. right; left. auto.
      * rewrite E, !Bool.orb_true_r. right; left. auto.
      * right; right; right; left. subst. eauto.
  - split; [tauto|]. intros _. right; right; right; left. eauto.
  - split; [tauto|]. intros _. right; left. auto.
  - split; [tauto|]. intros _. right; right; right; right. assumption.
Qed.

Lemma resolve_tag_like : forall other d opts p id,
  resolve_tag other d opts = Some p -> field_like (CField id p) = true.
Proof.
  intros other d opts p id H. unfold resolve_tag in H.
  destruct (negb (pack_ok opts)); [discriminate|].
  assert (G : forall (b : bool) q, (if b then Some q else None) = Some p ->
              b = true /\ q = p) by (intros [] q E; inversion E; auto).
  destruct d;
    try match type of H with
        | match ?x with SzBytes _ => _ | _ => _ end = _ => destruct x; try discriminate
        end;
    apply G in H as [Hb <-]; bools; rewrite like_cases.
  - left. destruct t; try discriminate; auto.
  - right; right; right; right. assumption.
  - left. destruct t; try discriminate; auto.
  - left. auto.
  - right; left. destruct t; try discriminate; auto.
  - right; left. auto.
  - right; right; left. eauto.
  - right; right; right; left. eauto.
Qed.

Lemma resolve_maybe_iff : forall base pred ids f,
  resolve_maybe base pred ids = Some f <->
  exists id p, base = CField id p /\ f = CMaybe base pred ids /\ p_constr p = CNone /\
    forall t n, p_type p <> XCArray t n.
Proof.
  intros base pred ids f. split.
  - intros H. destruct base as [id p| |]; try discriminate. cbn in H.
    destruct (p_constr p) eqn:Ek; try discriminate. exists id, p.
    split; [reflexivity|].
    destruct (p_type p) eqn:Et; try discriminate; injection H as <-;
      (split; [reflexivity|split; [exact Ek|discriminate]]).
  - intros (id & p & -> & -> & Ek & Et). cbn. rewrite Ek.
    destruct (p_type p) eqn:E; try reflexivity. exfalso. eapply Et. reflexivity.
Qed.

Lemma resolve_maybe_like : forall base pred ids f,
  resolve_maybe base pred ids = Some f -> specialisations f = [KOptional].
Proof.
  intros base pred ids f H. apply resolve_maybe_iff in H as (id & p & -> & -> & _).
  apply selected. reflexivity.
Qed.

Lemma constr_only_iff : forall opts, pack_ok opts = true /\ only is_constr opts = true <->
  opts = [] \/ exists k, opts = [OptConstr k].
Proof.
  intros opts. split.
  - intros [H1 H2]. destruct opts as [|o1 opts]; [auto|]. right.
    destruct o1; cbn in H2; try discriminate. exists k.
    destruct opts as [|o2 opts]; [reflexivity|].
    exfalso. destruct o2; cbn in H2; try discriminate H2.
    apply andb_prop in H1 as [H1 _]. apply andb_prop in H1 as [_ H1]. discriminate H1.
  - intros [->|[k ->]]; auto.
Qed.

Lemma choices_ids_iff : forall tid ps,
  choices_unique tid ps = true <-> NoDup (map (fun p => tid (p_type p)) ps).
Proof.
  intros tid ps. unfold choices_unique.
  destruct (unique_iff Z.eqb Z.eqb_eq (map (fun p => tid (p_type p)) ps)) as (b & -> & Hb).
  exact Hb.
Qed.

Lemma resolve_variance_iff : forall szw tid id g ps opts f,
  resolve_variance szw tid id g ps opts = Some f <->
  exists k, (opts = [] /\ k = CNone \/ opts = [OptConstr k]) /\ f = CUnion id g ps k /\
    NoDup (map (fun p => tid (p_type p)) ps) /\ NoDup (match_values_of szw g).
Proof.
  intros szw tid id g ps opts f. unfold resolve_variance.
  pose proof (choices_ids_iff tid ps) as Hc. pose proof (values_unique_iff szw g) as Hv. split.
  - intros H. destruct (pack_ok opts) eqn:E1; [|discriminate].
    destruct (only is_constr opts) eqn:E2; [|discriminate].
    destruct (choices_unique tid ps); [|discriminate].
    destruct (values_unique szw g); [|discriminate]. injection H as <-.
    pose proof (proj1 Hc eq_refl). pose proof (proj1 Hv eq_refl).
    destruct (proj1 (constr_only_iff opts) (conj E1 E2)) as [->|[k ->]]; eexists; cbn; eauto 8.
  - intros (k & Ho & -> & N1 & N2). rewrite (proj2 Hc N1), (proj2 Hv N2).
    destruct Ho as [[-> ->]| ->]; reflexivity.
Qed.

Lemma mirror_resolve : forall sgn other d opts, tag_elements d ->
  resolve_tag other d opts = resolve sgn other (mirror d) opts.
Proof.
  intros sgn other d opts H. unfold resolve_tag, resolve.
  destruct (negb (pack_ok opts)); [reflexivity|].
  destruct d; cbn [mirror] in *; cbn [tag_elements] in H; try reflexivity.
  - destruct H as [s ->]. reflexivity.
  - destruct H; reflexivity.
  - destruct H; reflexivity.
Qed.

Lemma tag_refused : forall other opts t, ~ number t ->
  resolve_tag other (AsTrivial t) opts = None /\ resolve_tag other (AsVec t) opts = None /\
  forall n, resolve_tag other (AsFixedArr t n) opts = None.
Proof.
  intros other opts t H. assert (E : x_trivial t = false).
  { destruct t; try reflexivity; exfalso; apply H; constructor. }
  unfold resolve_tag. rewrite E.
  repeat split; intros; destruct (negb (pack_ok opts)); try reflexivity.
  destruct (size_in_pack _ _); reflexivity.
Qed.

Lemma tag_float : forall sgn other w opts,
  resolve_tag other (AsTrivial (XFloat w)) opts =
  option_map (fun p => mkPlain (XFloat w) (p_size p) (p_constr p) (p_bound p))
             (resolve sgn other (BasicField (XInt (SInt w false))) opts).
Proof.
  intros sgn other w opts. unfold resolve_tag, resolve.
  destruct (negb (pack_ok opts)); [reflexivity|].
  change (x_size other (XFloat w)) with w. change (x_size other (XInt (SInt w false))) with w.
  destruct (size_in_pack w opts); try reflexivity.
  change (x_trivial (XFloat w)) with true. change (x_integral (XInt (SInt w false))) with true.
  destruct (_ && _)%bool; reflexivity.
Qed.

(** ** The fields of the model *)

Lemma to_ctype_array : forall t, x_fixed_array t = true -> exists c, to_ctype t = Some c.
Proof.
  induction t; cbn [x_fixed_array]; intros H; try discriminate.
  apply Bool.orb_prop in H as [H|H].
  - destruct t; try discriminate; cbn; eauto.
  - destruct IHt as [c E]; [exact H|]. cbn. rewrite E. eauto.
Qed.

Lemma to_ctype_c_array : forall t, x_c_array t = true -> exists c, to_ctype t = Some c.
Proof.
  induction t; cbn [x_c_array]; intros H; try discriminate.
  apply Bool.orb_prop in H as [H|H].
  - destruct t; try discriminate; cbn; eauto.
  - destruct IHt as [c E]; [exact H|]. cbn. rewrite E. eauto.
Qed.

Lemma to_ctype_containable : forall t, x_containable t = true ->
  exists c, to_ctype t = Some c.
Proof.
  intros t H. unfold x_containable, x_fixed_buffer in H.
  apply Bool.orb_prop in H as [H|H].
  - apply Bool.orb_prop in H as [H|H].
    + apply Bool.orb_prop in H as [H|H].
      * apply to_ctype_array; assumption.
      * apply to_ctype_c_array; assumption.
    + destruct t; try discriminate. cbn. eauto.
  - destruct t; try discriminate; cbn; eauto.
Qed.

Lemma to_plain_kind : forall sgn recsz p t id,
  to_plain sgn recsz p = Some t -> field_like (CField id p) = true ->
  specialisations (CField id p) = [kind_of t].
Proof.
  intros sgn recsz [ty sz c b] t id H HL. apply selected. cbn.
  apply like_cases in HL. unfold to_plain in H. cbn [p_type p_size p_bound] in H.
  destruct HL as [[H1 H2]|[[H1 H2]|[(e & n & -> & H1)|[(e & -> & H1)|H1]]]].
  - destruct sz; try discriminate.
    assert (t = FFixed (match to_ctype ty with Some c => c | None => TFixStr 0 end) n) as ->.
    { destruct ty as [| |e n'|e n'| | | | |]; cbn in H1; try discriminate;
        try (cbn in H |- *; congruence).
      - destruct e; try discriminate; cbn in H |- *;
          try congruence; destruct (to_ctype e); congruence.
      - cbn [to_ctype] in H |- *. destruct (to_ctype e); congruence. }
    cbn. rewrite H1. reflexivity.
  - destruct sz; try discriminate.
    assert (exists e, t = FVar e l b) as [e ->].
    { destruct ty as [| |e n'|e n'| |e| | |]; try discriminate.
      - destruct e; try discriminate; destruct (to_ctype _); try discriminate;
          injection H as <-; eauto.
      - injection H as <-. eauto. }
    cbn. rewrite H1. reflexivity.
  - destruct (x_record_eq _ H1) as [fs ->]. injection H as <-. reflexivity.
  - destruct (x_record_eq _ H1) as [fs ->]. destruct sz; try discriminate.
    injection H as <-. reflexivity.
  - destruct (x_record_eq _ H1) as [fs ->]. injection H as <-. reflexivity.
Qed.

Lemma to_field_kind : forall sgn recsz f t k,
  to_field sgn recsz f = Some (t, k) -> field_like f = true ->
  specialisations f = [kind_of t].
Proof.
  intros sgn recsz f t k H HL. destruct f as [id p|base pr ids|id g ps c].
  - cbn in H. destruct (to_plain sgn recsz p) as [t'|] eqn:E; [|discriminate].
    injection H as <- <-. eapply to_plain_kind; eassumption.
  - destruct base as [id p| |]; try discriminate. cbn in H.
    destruct (to_plain sgn recsz p); [|discriminate]. injection H as <- <-.
    apply selected. reflexivity.
  - cbn in H. destruct (to_alts sgn recsz ps); [|discriminate]. injection H as <- <-.
    apply selected. reflexivity.
Qed.

Lemma to_alts_nth : forall sgn recsz ps al, to_alts sgn recsz ps = Some al ->
  a_len al = length ps /\
  forall i p, nth_error ps i = Some p ->
    exists t, to_plain sgn recsz p = Some t /\ a_nth i al = Some (t, p_constr p).
Proof.
  intros sgn recsz. induction ps as [|p ps IH]; intros al H; cbn in H.
  - injection H as <-. split; [reflexivity|]. intros [|i] p E; discriminate.
  - destruct (to_plain sgn recsz p) as [t|] eqn:Et; [|discriminate].
    destruct (to_alts sgn recsz ps) as [al'|]; [|discriminate]. injection H as <-.
    destruct (IH al' eq_refl) as [Hl Hn]. split; [cbn; congruence|].
    intros [|i] q E; cbn in E.
    + injection E as <-. exists t. auto.
    + apply Hn, E.
Qed.

Lemma to_field_union : forall sgn recsz id g ps k t c,
  to_field sgn recsz (CUnion id g ps k) = Some (t, c) ->
  c = k /\ exists al, t = FUnion g al /\ a_len al = length ps /\
  forall i p, nth_error ps i = Some p ->
    exists u, to_field sgn recsz (CField id p) = Some (u, p_constr p) /\
              a_nth i al = Some (u, p_constr p).
Proof.
  intros sgn recsz id g ps k t c H. cbn in H.
  destruct (to_alts sgn recsz ps) as [al|] eqn:E; [|discriminate]. injection H as <- <-.
  split; [reflexivity|]. exists al. split; [reflexivity|].
  destruct (to_alts_nth _ _ _ _ E) as [Hl Hn]. split; [exact Hl|].
  intros i p Hi. destruct (Hn i p Hi) as (u & Hu & Ha). exists u. cbn. rewrite Hu. auto.
Qed.

Lemma to_field_maybe : forall sgn recsz base pr ids t c,
  to_field sgn recsz (CMaybe base pr ids) = Some (t, c) ->
  c = CNone /\ exists b k, to_field sgn recsz base = Some (b, k) /\ t = FMaybe b pr ids.
Proof.
  intros sgn recsz base pr ids t c H. destruct base as [id p| |]; try discriminate. cbn in *.
  destruct (to_plain sgn recsz p) as [b|]; [|discriminate]. injection H as <- <-.
  split; [reflexivity|]. eauto.
Qed.

Lemma to_plain_total : forall sgn recsz p id,
  field_like (CField id p) = true ->
  (is_kind KVectorOfRecords (CField id p) = true -> sz_variable (p_size p) = true) ->
  exists t, to_plain sgn recsz p = Some t.
Proof.
  intros sgn recsz [t sz c b] id HL Hv. cbn in Hv.
  apply like_cases in HL.
  destruct HL as [[H1 H2]|[[H1 H2]|[(e & n & -> & H1)|[(e & -> & H1)|H1]]]].
  - destruct sz; try discriminate. destruct (to_ctype_containable t H1) as [c' E].
    unfold to_plain. cbn [p_type p_size].
    destruct t as [| |e m| | |e| | |]; try discriminate; try (rewrite E; eauto).
    destruct e; rewrite ?E; eauto.
  - destruct sz; try discriminate. unfold to_plain. cbn [p_type p_size p_bound].
    destruct t as [| |e m| | |e| | |]; try discriminate; [|eauto].
    assert (exists c', to_ctype e = Some c') as [c' E].
    { unfold x_variable_buffer in H1. cbn in H1. rewrite Bool.orb_false_r in H1.
      apply to_ctype_containable.
      unfold x_containable, x_fixed_buffer. apply Bool.orb_prop in H1 as [H1|H1];
        rewrite H1, ?Bool.orb_true_r; reflexivity. }
    destruct e; rewrite ?E; eauto.
  - destruct (x_record_eq _ H1) as [fs ->]. cbn. eauto.
  - destruct (x_record_eq _ H1) as [fs ->]. cbn in Hv |- *. specialize (Hv eq_refl).
    destruct sz; try discriminate. cbn. eauto.
  - destruct (x_record_eq _ H1) as [fs ->]. cbn. eauto.
Qed.

Lemma to_ctype_size : forall other t c, to_ctype t = Some c -> x_size other t = csize c.
Proof.
  intros other. induction t; cbn; intros c H; try discriminate.
  - injection H as <-. reflexivity.
  - injection H as <-. reflexivity.
  - destruct (to_ctype t); [|discriminate]. injection H as <-. cbn. rewrite (IHt c0); auto.
  - destruct (to_ctype t); [|discriminate]. injection H as <-. cbn. rewrite (IHt c0); auto.
  - injection H as <-. reflexivity.
Qed.

(** A field described with its types is the field the option resolution of [Static.v]
    gives. *)
Lemma resolve_describe : forall sgn recsz other d d' opts p,
  described sgn recsz other d = Some d' ->
  resolve sgn other d opts = Some p ->
  describe d' opts = match to_plain sgn recsz p with
                     | Some t => Some (t, p_constr p)
                     | None => None
                     end.
Proof.
  intros sgn recsz other d d' opts p Hd H. unfold resolve in H. unfold describe.
  destruct (negb (pack_ok opts)); [discriminate|].
  assert (G : forall (b : bool) q, (if b then Some q else None) = Some p ->
              b = true /\ q = p) by (intros [] q E; inversion E; auto).
  destruct d; cbn [described] in Hd; try discriminate.
  - destruct t; try discriminate. injection Hd as <-. cbn in H.
    destruct (size_in_pack (ssize s) opts); try discriminate.
    apply G in H as [Hb <-]. bools. rewrite H, H0. reflexivity.
  - destruct (to_ctype t) eqn:Et; [|discriminate]. injection Hd as <-.
    apply G in H as [Hb <-]. bools. rewrite H0.
    rewrite <- (to_ctype_size other t c Et).
    unfold to_plain. cbn [p_type p_size p_constr].
    destruct t; try discriminate; cbn [to_ctype] in Et |- *; rewrite ?Et; try reflexivity;
      injection Et as <-; reflexivity.
  - destruct t; try discriminate. injection Hd as <-. cbn in H.
    apply G in H as [Hb <-]. rewrite Hb. reflexivity.
  - injection Hd as <-. apply G in H as [Hb <-]. rewrite Hb, Nat.add_comm. reflexivity.
  - destruct (to_ctype t) eqn:Et; [|discriminate]. injection Hd as <-.
    apply G in H as [Hb <-]. bools. rewrite H0.
    unfold to_plain. cbn [p_type p_size p_constr to_ctype].
    rewrite Et, <- (to_ctype_size other t c Et). reflexivity.
  - injection Hd as <-. apply G in H as [Hb <-]. rewrite Hb.
    unfold to_plain. cbn [p_type p_size p_constr to_ctype xchar csize ssize].
    do 3 f_equal. lia.
  - assert (Hr : (exists fs, t = XRecord fs) \/ (x_record t = false /\
               option_map (DVec (other (XVector t))) (to_ctype t) = Some d')).
    { destruct t; try (right; split; [reflexivity|exact Hd]). left. eauto. }
    destruct Hr as [[fs ->]|[Hr Hd']].
    + injection Hd as <-. apply G in H as [Hb <-]. bools. rewrite H.
      destruct (size_in_pack (other (XVector (XRecord fs))) opts); try discriminate. reflexivity.
    + destruct (to_ctype t) eqn:Et; [|discriminate]. injection Hd' as <-.
      apply G in H as [Hb <-]. bools. rewrite H.
      destruct (size_in_pack (other (XVector t)) opts); try discriminate.
      unfold to_plain. cbn [p_type p_size p_constr p_bound].
      destruct t; try discriminate; rewrite Et; reflexivity.
  - destruct t; try discriminate. injection Hd as <-. cbn in H.
    apply G in H as [Hb <-]. bools. rewrite H.
    destruct (size_in_pack (other (XVector (XRecord fs))) opts); try discriminate. reflexivity.
  - injection Hd as <-. apply G in H as [Hb <-]. bools. rewrite H.
    destruct (size_in_pack (other XString) opts); try discriminate. reflexivity.
  - destruct t; try discriminate. injection Hd as <-. cbn in H.
    apply G in H as [Hb <-]. rewrite Hb. reflexivity.
Qed.

(** ** Casts that compile *)

Lemma leaf_array : forall t n e, leaf (XArray t n) e -> leaf t e.
Proof. intros t n e H. inversion H. assumption. Qed.
Lemma leaf_c_array : forall t n e, leaf (XCArray t n) e -> leaf t e.
Proof. intros t n e H. inversion H. assumption. Qed.
Lemma leaf_vector : forall t e, leaf (XVector t) e -> leaf t e.
Proof. intros t e H. inversion H. assumption. Qed.

Lemma swap_element : forall other t,
  x_arithmetic t = true -> wide_floats t ->
  ((if Nat.ltb 1 (x_size other t) then x_integral t else true) = true <-> no_floats t).
Proof.
  intros other t Ha Hw. destruct t; try discriminate; cbn [x_size x_integral].
  - split; [intros _ w L; inversion L|]. intros _. destruct (Nat.ltb 1 (ssize s)); reflexivity.
  - assert (Nat.ltb 1 w = true) as -> by (apply Nat.ltb_lt, Hw; constructor).
    split; [discriminate|]. intros H. exfalso. apply (H w). constructor.
Qed.

Lemma swap_array : forall other t, x_fixed_array t = true -> wide_floats t ->
  (swap_compiles other t = true <-> no_floats t).
Proof.
  intros other. induction t; cbn [x_fixed_array]; intros H Hw; try discriminate.
  assert (Hw' : wide_floats t) by (intros w L; apply Hw; constructor; exact L).
  assert (Hf : no_floats (XArray t n) <-> no_floats t).
  { split; intros F w L; apply (F w); [constructor; exact L|eapply leaf_array; exact L]. }
  rewrite Hf. cbn [swap_compiles]. apply Bool.orb_prop in H as [H|H].
  - assert (x_buffer t = false) as -> by (destruct t; try discriminate; reflexivity).
    apply swap_element; assumption.
  - assert (x_buffer t = true) as ->.
    { unfold x_buffer, x_fixed_buffer. rewrite H. reflexivity. }
    apply IHt; assumption.
Qed.

Lemma swap_c_array : forall other t, x_c_array t = true -> wide_floats t ->
  (swap_compiles other t = true <-> no_floats t).
Proof.
  intros other. induction t; cbn [x_c_array]; intros H Hw; try discriminate.
  assert (Hw' : wide_floats t) by (intros w L; apply Hw; constructor; exact L).
  assert (Hf : no_floats (XCArray t n) <-> no_floats t).
  { split; intros F w L; apply (F w); [constructor; exact L|eapply leaf_c_array; exact L]. }
  rewrite Hf. cbn [swap_compiles]. apply Bool.orb_prop in H as [H|H].
  - assert (x_buffer t = false) as -> by (destruct t; try discriminate; reflexivity).
    apply swap_element; assumption.
  - assert (x_buffer t = true) as ->.
    { unfold x_buffer, x_fixed_buffer. rewrite H, Bool.orb_true_r. reflexivity. }
    apply IHt; assumption.
Qed.

Lemma swap_vector : forall other t, x_vector t = true -> wide_floats t ->
  (swap_compiles other t = true <-> no_floats t).
Proof.
  intros other t H Hw. destruct t; try discriminate. cbn in H.
  assert (Hw' : wide_floats t) by (intros w L; apply Hw; constructor; exact L).
  assert (Hf : no_floats (XVector t) <-> no_floats t).
  { split; intros F w L; apply (F w); [constructor; exact L|eapply leaf_vector; exact L]. }
  rewrite Hf. cbn [swap_compiles]. apply Bool.orb_prop in H as [H|H].
  - assert (x_buffer t = false) as -> by (destruct t; try discriminate; reflexivity).
    apply swap_element; assumption.
  - assert (x_buffer t = true) as ->.
    { unfold x_buffer, x_fixed_buffer. rewrite H. reflexivity. }
    apply swap_array; assumption.
Qed.

(** What fixed- and variable-size fields hold. *)
Definition castable (t : cxx) : Prop := x_containable t = true \/ x_variable_buffer t = true.

Lemma castable_of : forall id p k,
  specialisations (CField id p) = [k] -> k = KFixed \/ k = KVariable -> castable (p_type p).
Proof.
  intros id p k E [-> | ->]; apply specialised_like in E; cbn in E; bools; [left|right]; assumption.
Qed.

Lemma foreign_compiles : forall other t, castable t -> wide_floats t ->
  ((if x_trivial t then x_integral t else x_buffer t && swap_compiles other t) = true
   <-> no_floats t).
Proof.
  intros other t Hc Hw.
  destruct (x_trivial t) eqn:Ht.
  - destruct t; try discriminate; cbn.
    + split; [|reflexivity]. intros _ w L. inversion L.
    + split; [discriminate|]. intros H. exfalso. apply (H w). constructor.
  - unfold castable, x_containable, x_fixed_buffer, x_variable_buffer in Hc.
    assert (Hb : x_buffer t = true /\
            (x_fixed_array t = true \/ x_c_array t = true \/ x_fixed_string t = true \/
             x_vector t = true \/ x_string t = true)).
    { unfold x_buffer, x_fixed_buffer, x_variable_buffer.
      assert (x_arithmetic t = false) as Ha.
      { unfold x_arithmetic. unfold x_trivial in Ht. rewrite Bool.orb_comm. exact Ht. }
      rewrite Ha in Hc.
      destruct (x_fixed_array t), (x_c_array t), (x_fixed_string t), (x_vector t), (x_string t);
        cbn in *; intuition congruence. }
    destruct Hb as [-> Hb]. cbn [andb].
    destruct Hb as [H|[H|[H|[H|H]]]].
    + apply swap_array; assumption.
    + apply swap_c_array; assumption.
    + destruct t; try discriminate. split; [|reflexivity]. intros _ w L. inversion L.
    + apply swap_vector; assumption.
    + destruct t; try discriminate. split; [|reflexivity]. intros _ w L. inversion L.
Qed.

Lemma host_compiles : forall t, castable t -> x_constant_sized t || x_variable_buffer t = true.
Proof.
  intros t [H|H]; [|rewrite H; apply Bool.orb_true_r].
  unfold x_constant_sized, x_trivial. unfold x_containable, x_arithmetic in H.
  rewrite (Bool.orb_comm (x_floating t)). rewrite H. reflexivity.
Qed.

Lemma vector_of_bool_iff : forall t, vector_of_bool t = true <-> t = XVector (XInt SBool).
Proof.
  intros t. split; [|intros ->; reflexivity].
  destruct t as [| | | | |t| | |]; try discriminate.
  destruct t as [s| | | | | | | |]; try discriminate. destruct s; try discriminate. reflexivity.
Qed.

Lemma nested_c_array_iff : forall t,
  match t with XCArray (XCArray _ _) _ => false | _ => true end = true <-> ~ nested_c_array t.
Proof.
  intros t. split.
  - intros H N. inversion N; subst. discriminate.
  - intros H. destruct t as [| | |t n| | | | |]; try reflexivity.
    destruct t; try reflexivity. exfalso. apply H. constructor.
Qed.

Lemma read_compiles_iff : forall other cx foreign id p k,
  specialisations (CField id p) = [k] -> k = KFixed \/ k = KVariable ->
  wide_floats (p_type p) ->
  (read_compiles other cx foreign (p_type p) = true <->
   p_type p <> XVector (XInt SBool) /\
   (foreign = true -> no_floats (p_type p)) /\
   (cx = true -> ~ nested_c_array (p_type p))).
Proof.
  intros other cx foreign id p k E Hk Hw. pose proof (castable_of _ _ _ E Hk) as Hc.
  set (t := p_type p) in *. clearbody t. clear p E.
  unfold read_compiles. rewrite !Bool.andb_true_iff.
  rewrite Bool.negb_true_iff, <- Bool.not_true_iff_false, vector_of_bool_iff.
  pose proof (foreign_compiles other t Hc Hw) as HF. pose proof (host_compiles t Hc) as HH.
  pose proof (nested_c_array_iff t) as HN.
  destruct foreign, cx.
  - rewrite HF, HN. intuition.
  - rewrite HF. intuition discriminate.
  - rewrite HH, HN. intuition discriminate.
  - rewrite HH. intuition discriminate.
Qed.

Lemma write_compiles_iff : forall other cx foreign id p k,
  specialisations (CField id p) = [k] -> k = KFixed \/ k = KVariable ->
  wide_floats (p_type p) ->
  (write_compiles other cx foreign (p_type p) = true <->
   if foreign then no_floats (p_type p)
   else cx = true \/ p_type p <> XVector (XInt SBool)).
Proof.
  intros other cx foreign id p k E Hk Hw. pose proof (castable_of _ _ _ E Hk) as Hc.
  set (t := p_type p) in *. clearbody t. clear p E.
  unfold write_compiles. destruct foreign.
  - apply foreign_compiles; assumption.
  - rewrite host_compiles by assumption. cbn [andb].
    rewrite Bool.orb_true_iff, Bool.negb_true_iff, <- Bool.not_true_iff_false, vector_of_bool_iff.
    tauto.
Qed.

(** ** Alternatives *)

Lemma map_injective_nodup : forall {A B} (f : A -> B) l,
  (forall a b, In a l -> In b l -> f a = f b -> a = b) -> (NoDup (map f l) <-> NoDup l).
Proof.
  intros A B f l. induction l as [|x l IH]; intros Hi; [split; constructor|].
  assert (IH' : NoDup (map f l) <-> NoDup l)
    by (apply IH; intros a b Ha Hb; apply Hi; right; assumption).
  cbn. split; intros H; inversion H; subst; constructor; try (apply IH'; assumption).
  - intros Hx. apply H2. apply in_map, Hx.
  - intros Hx. apply in_map_iff in Hx as (y & Ey & Hy).
    apply H2. rewrite <- (Hi y x); auto; [right; assumption|left; reflexivity].
Qed.

Lemma choices_unique_iff : forall tid ps,
  (forall p q, In p ps -> In q ps -> tid (p_type p) = tid (p_type q) -> p_type p = p_type q) ->
  (choices_unique tid ps = true <-> NoDup (map p_type ps)).
Proof.
  intros tid ps Hi. unfold choices_unique.
  destruct (unique_iff Z.eqb Z.eqb_eq (map (fun p => tid (p_type p)) ps)) as (b & -> & Hb).
  rewrite Hb. rewrite <- (map_map p_type tid). apply map_injective_nodup.
  intros a c Ha Hc E. apply in_map_iff in Ha as (p & <- & Hp).
  apply in_map_iff in Hc as (q & <- & Hq). apply Hi; assumption.
Qed.

Lemma find_index_nth : forall l i (z : Z), NoDup l -> nth_error l i = Some z ->
  find_index Z.eqb l z = i.
Proof.
  unfold find_index, find_index_if.
  induction l as [|x l IH]; intros i z Hnd Hz; [destruct i; discriminate|].
  inversion Hnd; subst. destruct i as [|i]; cbn in Hz |- *.
  - injection Hz as ->. rewrite Z.eqb_refl. reflexivity.
  - destruct (Z.eqb_spec x z) as [->|_].
    + exfalso. apply H1. eapply nth_error_In, Hz.
    + rewrite find_shift. f_equal. apply IH; assumption.
Qed.

Lemma variant_assign_index : forall tid ps i p,
  choices_unique tid ps = true -> nth_error ps i = Some p ->
  variant_assign tid ps (p_type p) = Some i.
Proof.
  intros tid ps i p Hu Hp. unfold choices_unique in Hu.
  destruct (unique_iff Z.eqb Z.eqb_eq (map (fun p => tid (p_type p)) ps)) as (b & E & Hb).
  rewrite E in Hu. apply Hb in Hu. unfold variant_assign.
  rewrite (find_index_nth _ i); [|exact Hu|].
  - assert (i < length ps)%nat by (apply nth_error_Some; congruence).
    rewrite (proj2 (Nat.ltb_lt _ _)); auto.
  - rewrite nth_error_map, Hp. reflexivity.
Qed.

(** ** Streams *)

Lemma stream_like_iff : forall s,
  (input_stream_like s = true <->
     st_bool s = true /\ (st_constexpr s = true \/ st_std_read s = true \/ st_read s = true)) /\
  (output_stream_like s = true <->
     st_bool s = true /\ (st_constexpr s = true \/ st_std_write s = true \/ st_write s = true)).
Proof.
  intros [[] [] [] [] [] []]; cbn; intuition discriminate.
Qed.

Lemma read_overload_one : forall s, input_stream_like s = true ->
  ((exists o, read_overloads s = [o]) <-> ~ (st_constexpr s = true /\ st_readable s = true)).
Proof.
  intros s H. unfold input_stream_like in H. unfold read_overloads.
  destruct (st_constexpr s), (st_readable s); cbn in *; try discriminate; split; intros K;
    try (eexists; reflexivity); try (destruct K as [o K]; discriminate);
    try (exfalso; apply K; auto; fail); intros [? ?]; discriminate.
Qed.

Lemma write_overload_one : forall s, output_stream_like s = true ->
  ((exists o, write_overloads s = [o]) <-> ~ (st_constexpr s = true /\ st_writeable s = true)).
Proof.
  intros s H. unfold output_stream_like in H. unfold write_overloads.
  destruct (st_constexpr s), (st_writeable s); cbn in *; try discriminate; split; intros K;
    try (eexists; reflexivity); try (destruct K as [o K]; discriminate);
    try (exfalso; apply K; auto; fail); intros [? ?]; discriminate.
Qed.

(** ** Switches *)

Lemma discriminants_eq : forall fs,
  flat_map discriminants_of (f_types fs) = discriminants fs.
Proof.
  unfold discriminants. induction fs as [|id t k fs IH]; [reflexivity|].
  cbn. rewrite IH. reflexivity.
Qed.

Lemma discriminants_declared : forall fs seen, wf_fields seen fs = true ->
  forall id, In id (discriminants fs) -> In id (rev seen ++ f_ids fs).
Proof.
  induction fs as [|id t k fs IH]; intros seen Hw d Hd; [destruct Hd|].
  cbn [wf_fields] in Hw. bools.
  unfold discriminants in Hd. cbn [f_list flat_map] in Hd. apply in_app_or in Hd as [Hd|Hd].
  - destruct t as [| | | | | |g al]; try (destruct Hd; fail).
    destruct g; try (destruct Hd; fail). destruct Hd as [->|[]].
    cbn in H1. bools. apply in_or_app. left. rewrite <- in_rev. apply memb_iff. assumption.
  - specialize (IH _ H0 d Hd). cbn in IH. rewrite <- app_assoc in IH. exact IH.
Qed.

Lemma switch_reads_iff : forall fs, wf fs = true -> (f_len fs <= 256)%nat ->
  (length (lengths fs) <= 64)%nat -> (length (discriminants fs) <= 64)%nat ->
  ~ In EmptyString (f_ids fs) ->
  (switch_reads fs = true <-> forall id, In id (discriminants fs) -> ~ In id (lengths fs)).
Proof.
  intros fs Hw Hl H1 H2 He. unfold switch_reads. rewrite discriminants_eq, forallb_forall.
  split; intros H id Hd; specialize (H id Hd); pose proof (discriminants_declared fs [] Hw id Hd) as Hi;
    cbn in Hi; assert (Hn : id <> EmptyString) by (intros ->; contradiction).
  - intros Hlen. pose proof (policy_hidden fs id Hw Hl H1 H2 Hn true) as P.
    rewrite (proj2 P (or_intror Hlen)) in H. discriminate.
  - pose proof (policy_const_obj fs id Hw Hl H1 H2 Hn) as P.
    rewrite (proj2 P (conj Hi H)). reflexivity.
Qed.

Lemma dont_care_no_form : forall m, In m deduce_forms -> size_matches m SzDontCare = false.
Proof. intros m [<-|[<-|[<-|[]]]]; reflexivity. Qed.
