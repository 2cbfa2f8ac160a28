(** * Facts about what descriptors declare *)
From Coq Require Import String Lia Permutation.
From Verif Require Import TableSpec DeclareFacts KindFacts GuideFacts OptionFacts StaticDeps StaticWf.
From Verif Require Import KindSpec GuideSpec.
Local Open Scope list_scope.

(** ** Packs *)

Lemma count_perm f l l' : Permutation l l' -> count f l = count f l'.
Proof.
  unfold count. induction 1; cbn; try congruence.
  - destruct (f x); cbn; congruence.
  - destruct (f x), (f y); reflexivity.
Qed.

Lemma only_perm f l l' : Permutation l l' -> only f l = only f l'.
Proof.
  intros P. unfold only. apply Bool.eq_iff_eq_true. rewrite !forallb_forall.
  split; intros H x Hx; apply H; [apply Permutation_sym in P|]; eapply Permutation_in; eauto.
Qed.

Lemma size_in n s opts : pack_ok opts = true -> In (OptSize s) opts -> size_in_pack n opts = s.
Proof.
  unfold pack_ok. rewrite !Bool.andb_true_iff. intros [[H _] _] Hi. apply Nat.leb_le in H.
  assert (Z : forall l, count is_size l = 0%nat -> ~ In (OptSize s) l).
  { induction l as [|o l IH]; simpl; auto. intros Hc [->|Hl]; [discriminate|].
    destruct o; simpl in Hc; try discriminate; apply IH; auto. }
  induction opts as [|o opts IH]; [contradiction|]. destruct Hi as [->|Hi]; [reflexivity|].
  destruct o; simpl in *; auto; exfalso; apply (Z opts); auto; lia.
Qed.
Lemma size_not n opts : (forall s, ~ In (OptSize s) opts) -> size_in_pack n opts = SzBytes n.
Proof.
  induction opts as [|o opts IH]; intros H; [reflexivity|].
  destruct o; cbn; try (apply IH; intros x Hs; apply (H x); right; exact Hs).
  exfalso. eapply H. left. reflexivity.
Qed.
Lemma constr_in k opts : pack_ok opts = true -> In (OptConstr k) opts -> constr_in_pack opts = k.
Proof.
  unfold pack_ok. rewrite !Bool.andb_true_iff. intros [[_ H] _] Hi. apply Nat.leb_le in H.
  assert (Z : forall l, count is_constr l = 0%nat -> ~ In (OptConstr k) l).
  { induction l as [|o l IH]; simpl; auto. intros Hc [->|Hl]; [discriminate|].
    destruct o; simpl in Hc; try discriminate; apply IH; auto. }
  induction opts as [|o opts IH]; [contradiction|]. destruct Hi as [->|Hi]; [reflexivity|].
  destruct o; simpl in *; auto; exfalso; apply (Z opts); auto; lia.
Qed.
Lemma constr_not opts : (forall k, ~ In (OptConstr k) opts) -> constr_in_pack opts = CNone.
Proof.
  induction opts as [|o opts IH]; intros H; [reflexivity|].
  destruct o; cbn; try (apply IH; intros x Hs; apply (H x); right; exact Hs).
  exfalso. eapply H. left. reflexivity.
Qed.
Lemma bound_not opts : (forall b, ~ In (OptBound b) opts) -> bound_in_pack opts = None.
Proof.
  induction opts as [|o opts IH]; intros H; [reflexivity|].
  destruct o; cbn; try (apply IH; intros x Hs; apply (H x); right; exact Hs).
  exfalso. eapply H. left. reflexivity.
Qed.

Lemma pack_means opts s k b : pack opts s k b ->
  pack_ok opts = true /\
  (forall n, size_in_pack n opts = match s with Some s' => s' | None => SzBytes n end) /\
  constr_in_pack opts = constraint_of k /\ bound_in_pack opts = bound_of b /\
  only (fun o => is_size o || is_constr o || is_bound o) opts = true /\
  only (fun o => is_size o || is_constr o) opts = match b with None => true | _ => false end /\
  only is_constr opts = match s, b with None, None => true | _, _ => false end.
Proof.
  unfold pack. intros P.
  assert (O : pack_ok opts = true).
  { unfold pack_ok. rewrite !(count_perm _ _ _ P). destruct s, k, b; reflexivity. }
  assert (I : forall o, In o opts <-> In o (given OptSize s ++ given OptConstr k ++ given OptBound b)).
  { intros o. split; apply Permutation_in; [exact P|apply Permutation_sym, P]. }
  split; [exact O|]. split; [|split; [|split]].
  - intros n. destruct s as [s|].
    + apply size_in; [exact O|]. apply I. left. reflexivity.
    + apply size_not. intros s' H. apply I in H. destruct k, b; cbn in H; intuition discriminate.
  - destruct k as [k|].
    + apply constr_in; [exact O|]. apply I. rewrite in_app_iff. right. left. reflexivity.
    + apply constr_not. intros s' H. apply I in H. destruct s, b; cbn in H; intuition discriminate.
  - destruct b as [b|].
    + apply in_pack_bound; [exact O|]. apply I. rewrite !in_app_iff. right. right. left. reflexivity.
    + apply bound_not. intros s' H. apply I in H. destruct s, k; cbn in H; intuition discriminate.
  - rewrite !(only_perm _ _ _ P). destruct s, k, b; repeat split.
Qed.

Lemma is_pack opts : pack_ok opts = true ->
  only (fun o => is_size o || is_constr o || is_bound o) opts = true -> exists s k b, pack opts s k b.
Proof.
  unfold pack_ok. rewrite !Bool.andb_true_iff, !Nat.leb_le. intros [[H1 H2] H3].
  induction opts as [|o opts IH]; intros H; [exists None, None, None; apply perm_nil|].
  cbn in H. apply Bool.andb_true_iff in H as [Ho H].
  assert (L : forall f, (count f opts <= count f (o :: opts))%nat) by (intros f; unfold count; cbn; destruct (f o); cbn; lia).
  destruct IH as (s & k & b & P); auto; try (eapply Nat.le_trans; [apply L|assumption]).
  pose proof (count_perm is_size _ _ P) as C1. pose proof (count_perm is_constr _ _ P) as C2.
  pose proof (count_perm is_bound _ _ P) as C3.
  unfold count in *. destruct o as [s'|k'|b'|]; cbn in Ho, H1, H2, H3; try discriminate.
  - destruct s; [exfalso; destruct k, b; cbn in C1; lia|]. exists (Some s'), k, b.
    apply perm_skip. exact P.
  - destruct k; [exfalso; destruct s, b; cbn in C2; lia|]. exists s, (Some k'), b.
    apply Permutation_cons_app. exact P.
  - destruct b; [exfalso; destruct s, k; cbn in C3; lia|]. exists s, k, (Some b'). unfold pack.
    rewrite app_assoc. apply Permutation_cons_app. rewrite <- app_assoc. exact P.
Qed.

Lemma weaker (f g : opt -> bool) opts : (forall o, f o = true -> g o = true) ->
  only f opts = true -> only g opts = true.
Proof. unfold only. rewrite !forallb_forall. auto. Qed.

Lemma pack_constr opts : pack_ok opts = true -> only is_constr opts = true -> exists k, pack opts None k None.
Proof.
  intros O H. destruct (is_pack opts O) as (s & k & b & P).
  { eapply weaker; [|exact H]. intros []; cbn; auto. }
  destruct (pack_means _ _ _ _ P) as (_ & _ & _ & _ & _ & _ & E). rewrite H in E.
  destruct s, b; try discriminate. eauto.
Qed.
Lemma pack_sized opts : pack_ok opts = true -> only (fun o => is_size o || is_constr o) opts = true ->
  exists s k, pack opts s k None.
Proof.
  intros O H. destruct (is_pack opts O) as (s & k & b & P).
  { eapply weaker; [|exact H]. intros []; cbn; auto. }
  destruct (pack_means _ _ _ _ P) as (_ & _ & _ & _ & _ & E & _). rewrite H in E.
  destruct b; try discriminate. eauto.
Qed.

Lemma pack_perm opts opts' s k b : Permutation opts opts' -> pack opts s k b -> pack opts' s k b.
Proof. unfold pack. intros P. apply Permutation_trans, Permutation_sym, P. Qed.

(** ** Elements *)

Lemma num_facts x c : num x c -> number x /\ to_ctype x = Some c /\ x_trivial x = true.
Proof. destruct 1; cbn; auto using num_int, num_float. Qed.

Lemma elem_std x c : elem XArray x c <-> (number x \/ std_nest x) /\ to_ctype x = Some c.
Proof.
  split.
  - induction 1 as [x c H|x c n H [IH E]].
    + destruct (num_facts _ _ H) as (N & E & _). auto.
    + cbn. rewrite E. split; [|reflexivity]. right. destruct IH; [apply sn_num|apply sn_arr]; assumption.
  - intros [[H|H] E].
    + apply el_num. destruct H; injection E as <-; constructor.
    + revert c E. induction H as [x n H|x n H IH]; intros c E; cbn in E;
        (destruct (to_ctype x) as [c'|] eqn:E'; [|discriminate]); injection E as <-; apply el_arr; auto.
      apply el_num. destruct H; injection E' as <-; constructor.
Qed.
Lemma elem_c x c : elem XCArray x c <-> (number x \/ c_nest x) /\ to_ctype x = Some c.
Proof.
  split.
  - induction 1 as [x c H|x c n H [IH E]].
    + destruct (num_facts _ _ H) as (N & E & _). auto.
    + cbn. rewrite E. split; [|reflexivity]. right. destruct IH; [apply cn_num|apply cn_arr]; assumption.
  - intros [[H|H] E].
    + apply el_num. destruct H; injection E as <-; constructor.
    + revert c E. induction H as [x n H|x n H IH]; intros c E; cbn in E;
        (destruct (to_ctype x) as [c'|] eqn:E'; [|discriminate]); injection E as <-; apply el_arr; auto.
      apply el_num. destruct H; injection E' as <-; constructor.
Qed.

Lemma num_of x c : number x -> to_ctype x = Some c -> num x c.
Proof. destruct 1; intros E; injection E as <-; constructor. Qed.

Lemma containable_std x : number x \/ std_nest x -> x_containable x = true.
Proof.
  unfold x_containable, x_fixed_buffer. intros [D|D].
  - apply arithmetic_number in D. rewrite D, !Bool.orb_true_r. reflexivity.
  - apply fixed_array_nest in D. rewrite D. reflexivity.
Qed.
Lemma containable_c x : number x \/ c_nest x -> x_containable x = true.
Proof.
  unfold x_containable, x_fixed_buffer. intros [D|D].
  - apply arithmetic_number in D. rewrite D, !Bool.orb_true_r. reflexivity.
  - apply c_array_nest in D. rewrite D, !Bool.orb_true_r. reflexivity.
Qed.

(** ** Plain fields *)

Definition plain_made a id d opts t k : Prop :=
  exists p, resolve (a_sgn a) (a_other a) d opts = Some p /\ field_like (CField id p) = true /\
    to_plain (a_sgn a) (a_recsz a) p = Some t /\ p_constr p = k.

Ltac packed := 
  match goal with P : pack _ _ _ _ |- _ =>
    let O := fresh "O" in let S := fresh "Sz" in let K := fresh "K" in let B := fresh "B" in
    let O1 := fresh "O1" in let O2 := fresh "O2" in let O3 := fresh "O3" in
    destruct (pack_means _ _ _ _ P) as (O & S & K & B & O1 & O2 & O3) end.

Lemma made a id d opts p t k : resolve (a_sgn a) (a_other a) d opts = Some p -> supported d ->
  to_plain (a_sgn a) (a_recsz a) p = Some t -> p_constr p = k -> plain_made a id d opts t k.
Proof. intros R S T K. exists p. repeat split; auto. apply (resolve_like _ _ _ _ _ id R). exact S. Qed.

Lemma says_made a id d opts t k : plain_says a d opts t k -> plain_made a id d opts t k.
Proof.
  intros H. destruct H; try packed;
    try match goal with H : elem _ _ _ |- _ => first [apply elem_std in H | apply elem_c in H]; destruct H as [D E] end.
  - apply made with (p := mkPlain (XInt s) (SzBytes n) (constraint_of k) None);
      [unfold resolve; rewrite O, Sz, K; cbn [negb]| | |].
    + destruct H0 as [[-> ->]| ->]; rewrite O2; cbn [x_integral x_size andb]; apply Nat.leb_le in H1; rewrite H1; reflexivity.
    + exact I.
    + reflexivity.
    + reflexivity.
  - eapply made; [unfold resolve; rewrite O, (containable_std _ D), O3; reflexivity|exact D| |exact K].
    rewrite (to_ctype_size _ _ _ E). apply to_plain_array; [tauto|exact E].
  - eapply made; [unfold resolve; rewrite O, (containable_c _ D), O3; reflexivity|exact D| |exact K].
    rewrite (to_ctype_size _ _ _ E). unfold to_plain. cbn. rewrite E. reflexivity.
  - eapply made; [unfold resolve; rewrite O, O3; reflexivity|exact I| |exact K]. cbn. rewrite Nat.add_1_r. reflexivity.
  - eapply made; [unfold resolve; rewrite O, O3; reflexivity|exact I| |exact K]. cbn.
    rewrite Nat.mul_1_r, Nat.add_1_r. reflexivity.
  - eapply made; [unfold resolve; rewrite O, O3; reflexivity|exact I|reflexivity|exact K].
  - eapply made; [unfold resolve; rewrite O, O3; reflexivity|exact I|reflexivity|exact K].
  - eapply made; [reflexivity|exact I|reflexivity|reflexivity].
  - eapply made; [reflexivity|exact I| |reflexivity]. cbn. rewrite Nat.add_1_r, H. reflexivity.
  - eapply made; [reflexivity|exact I|reflexivity|reflexivity].
  - eapply made; [unfold resolve; rewrite O, O1, Sz; reflexivity|cbn; tauto| |exact K].
    rewrite B. apply to_plain_vector. exact E.
  - destruct H as [->| ->];
      (eapply made; [unfold resolve; rewrite O, O1, Sz; reflexivity|cbn; eauto| |exact K]); cbn; rewrite B; reflexivity.
  - eapply made; [unfold resolve; rewrite O, O1, Sz; reflexivity|exact I| |exact K]. cbn. rewrite B. reflexivity.
Qed.

Ltac constr_pack :=
  match goal with O : pack_ok _ = true, H : only is_constr _ = true |- _ =>
    destruct (pack_constr _ O H) as (k' & P); packed;
    match goal with E : constr_in_pack _ = _ |- _ => rewrite E end end.

Lemma made_says a id d opts t k : plain_made a id d opts t k -> plain_says a d opts t k.
Proof.
  intros (p & R & L & T & <-). pose proof (proj1 (resolve_like _ _ _ _ _ id R) L) as S. clear L.
  unfold resolve in R. destruct (pack_ok opts) eqn:PO; [|discriminate]. cbn [negb] in R.
  destruct d; cbn [supported] in S.
  - destruct (size_in_pack (x_size (a_other a) t0) opts) as [n| | |] eqn:E; try discriminate.
    apply given_some in R as [Hb <-]; bools. cbn [p_constr].
    destruct t0; try discriminate. cbn in T. injection T as <-.
    match goal with H : only _ _ = true |- _ => destruct (pack_sized _ PO H) as (s' & k' & P) end.
    packed. rewrite K. apply ps_basic with (sz := s'); auto.
    + rewrite Sz in E. destruct s' as [[]|]; try discriminate; injection E as <-; [right|left]; auto.
    + apply Nat.leb_le. assumption.
  - apply given_some in R as [Hb <-]; bools. cbn [p_constr]. constr_pack.
    assert (exists c, to_ctype t0 = Some c) as [c E] by (destruct S; auto using to_ctype_number, to_ctype_std).
    rewrite (to_plain_array _ _ _ _ _ _ _ c) in T; [|tauto|exact E]. injection T as <-.
    rewrite (to_ctype_size _ _ _ E). apply ps_array; [apply elem_std; auto|exact P].
  - apply given_some in R as [Hb <-]; bools. cbn [p_constr]. constr_pack.
    destruct (x_record_eq _ H) as [fs ->]. cbn in T. injection T as <-. apply ps_records. exact P.
  - apply given_some in R as [Hb <-]; bools. cbn [p_constr]. constr_pack.
    cbn in T. injection T as <-. rewrite Nat.add_1_r. apply ps_string. exact P.
  - apply given_some in R as [Hb <-]; bools. cbn [p_constr]. constr_pack.
    assert (exists c, to_ctype t0 = Some c) as [c E] by (destruct S; auto using to_ctype_number, to_ctype_c).
    unfold to_plain in T. cbn in T. rewrite E in T. injection T as <-.
    rewrite (to_ctype_size _ _ _ E). apply ps_carray; [apply elem_c; auto|exact P].
  - apply given_some in R as [Hb <-]; bools. cbn [p_constr]. constr_pack.
    cbn in T. injection T as <-. rewrite Nat.mul_1_r, Nat.add_1_r. apply ps_cstring. exact P.
  - destruct opts; [|discriminate]. injection R as <-. cbn in T. injection T as <-. constructor.
  - destruct opts; [|discriminate]. injection R as <-. cbn in T. injection T as <-. rewrite Nat.add_1_r.
    apply ps_magic_string. reflexivity.
  - apply given_some in R as [Hb <-]; bools. destruct opts; [|discriminate].
    destruct t0; try discriminate. destruct sz; try discriminate. cbn in T. injection T as <-. constructor.
  - apply given_some in R as [Hb <-]; bools. cbn [p_constr].
    match goal with H : sz_variable _ = true |- _ => destruct (variable_size _ H) as [l E]; rewrite E in T end.
    match goal with H : only _ _ = true |- _ => destruct (is_pack _ PO H) as (s' & k' & b' & P) end.
    packed. rewrite Sz in E. destruct s' as [s'|]; [subst s'|discriminate]. rewrite K. rewrite B in T.
    destruct S as [D|[D|(fs & ->)]].
    + destruct (to_ctype_number _ D) as [c Ec]. rewrite (to_plain_vector _ _ _ _ _ _ _ Ec) in T.
      injection T as <-. apply ps_vector; [apply elem_std; auto|exact P].
    + destruct (to_ctype_std _ D) as [c Ec]. rewrite (to_plain_vector _ _ _ _ _ _ _ Ec) in T.
      injection T as <-. apply ps_vector; [apply elem_std; auto|exact P].
    + cbn in T. injection T as <-. apply ps_vector_records; auto.
  - apply given_some in R as [Hb <-]; bools. cbn [p_constr].
    match goal with H : sz_variable _ = true |- _ => destruct (variable_size _ H) as [l E]; rewrite E in T end.
    match goal with H : only _ _ = true |- _ => destruct (is_pack _ PO H) as (s' & k' & b' & P) end.
    packed. rewrite Sz in E. destruct s' as [s'|]; [subst s'|discriminate]. rewrite K. rewrite B in T.
    destruct (x_record_eq _ H) as [fs ->]. cbn in T. injection T as <-. apply ps_vector_records; auto.
  - apply given_some in R as [Hb <-]; bools. cbn [p_constr].
    match goal with H : sz_variable _ = true |- _ => destruct (variable_size _ H) as [l E]; rewrite E in T end.
    match goal with H : only _ _ = true |- _ => destruct (is_pack _ PO H) as (s' & k' & b' & P) end.
    packed. rewrite Sz in E. destruct s' as [s'|]; [subst s'|discriminate]. rewrite K. rewrite B in T.
    cbn in T. injection T as <-. apply ps_str. exact P.
  - apply given_some in R as [Hb <-]; bools. cbn [p_constr]. constr_pack.
    destruct (x_record_eq _ H) as [fs ->]. cbn in T. injection T as <-. apply ps_record. exact P.
Qed.

(** ** Alternatives *)

Lemma alt_says_made a d opts x t k : alt_says a d opts x t k <->
  exists p, resolve_tag (a_other a) d opts = Some p /\ p_type p = x /\ p_constr p = k /\
    to_plain (a_sgn a) (a_recsz a) p = Some t.
Proof.
  split.
  - intros H. destruct H; packed; try match goal with H : num _ _ |- _ => destruct (num_facts _ _ H) as (N & E & X) end.
    + exists (mkPlain x (SzBytes n) (constraint_of k) None). split; [|split; [reflexivity|split; [reflexivity|]]].
      * unfold resolve_tag. rewrite O, Sz, K, O2, X, (to_ctype_size _ _ _ E). cbn [negb].
        apply Nat.leb_le in H2. destruct H1 as [[-> ->]| ->]; rewrite H2; reflexivity.
      * destruct H; reflexivity.
    + eexists. split; [unfold resolve_tag; rewrite O, X, O3; reflexivity|].
      rewrite (to_ctype_size _ _ _ E). repeat split; [exact K|]. apply to_plain_array; auto.
    + eexists. split; [unfold resolve_tag; rewrite O, O3; reflexivity|]. rewrite Nat.add_1_r. repeat split. exact K.
    + eexists. split; [unfold resolve_tag; rewrite O, O3; reflexivity|]. repeat split. exact K.
    + eexists. split; [unfold resolve_tag; rewrite O, O3; reflexivity|]. repeat split. exact K.
    + eexists. split; [unfold resolve_tag; rewrite O, X, O1, Sz; reflexivity|]. repeat split; [exact K|].
      rewrite B. apply to_plain_vector. exact E.
    + eexists. split; [unfold resolve_tag; rewrite O, O1, Sz; reflexivity|]. repeat split; [exact K|].
      cbn. rewrite B. reflexivity.
    + eexists. split; [unfold resolve_tag; rewrite O, O1, Sz; reflexivity|]. repeat split; [exact K|].
      cbn. rewrite B. reflexivity.
  - intros (p & R & <- & <- & T). unfold resolve_tag in R.
    destruct (pack_ok opts) eqn:PO; [|discriminate]. cbn [negb] in R. destruct d.
    + destruct (size_in_pack (x_size (a_other a) t0) opts) as [n| | |] eqn:E; try discriminate.
      apply given_some in R as [Hb <-]; bools. cbn [p_constr p_type].
      destruct (trivial_num _ H) as (c & Hn & Ec). rewrite (to_ctype_size _ _ _ Ec) in *.
      assert (t = FFixed c n) as -> by (destruct Hn; cbn in T; congruence).
      match goal with H : only _ _ = true |- _ => destruct (pack_sized _ PO H) as (s' & k' & P) end.
      packed. rewrite K. apply as_num with (sz := s'); auto.
      * rewrite Sz in E. destruct s' as [[]|]; try discriminate; injection E as <-; [right|left]; auto.
      * apply Nat.leb_le. assumption.
    + apply given_some in R as [Hb <-]; bools. cbn [p_constr p_type]. constr_pack.
      destruct (x_record_eq _ H) as [fs ->]. cbn in T. injection T as <-. apply as_record. exact P.
    + apply given_some in R as [Hb <-]; bools. cbn [p_constr p_type]. constr_pack.
      destruct (trivial_num _ H) as (c & Hn & Ec). destruct (num_facts _ _ Hn) as (N & _ & _).
      rewrite (to_plain_array _ _ _ _ _ _ _ c) in T; [|auto|exact Ec]. injection T as <-.
      rewrite (to_ctype_size _ _ _ Ec). apply as_arr; auto.
    + apply given_some in R as [Hb <-]; bools. cbn [p_constr p_type]. constr_pack.
      cbn in T. injection T as <-. rewrite Nat.add_1_r. apply as_fixstr. exact P.
    + apply given_some in R as [Hb <-]; bools. cbn [p_constr p_type].
      match goal with H : sz_variable _ = true |- _ => destruct (variable_size _ H) as [l E]; rewrite E in T end.
      match goal with H : only _ _ = true |- _ => destruct (is_pack _ PO H) as (s' & k' & b' & P) end.
      packed. rewrite Sz in E. destruct s' as [s'|]; [subst s'|discriminate]. rewrite K. rewrite B in T.
      destruct (trivial_num _ H) as (c & Hn & Ec). rewrite (to_plain_vector _ _ _ _ _ _ _ Ec) in T.
      injection T as <-. apply as_vector; auto.
    + apply given_some in R as [Hb <-]; bools. cbn [p_constr p_type].
      match goal with H : sz_variable _ = true |- _ => destruct (variable_size _ H) as [l E]; rewrite E in T end.
      match goal with H : only _ _ = true |- _ => destruct (is_pack _ PO H) as (s' & k' & b' & P) end.
      packed. rewrite Sz in E. destruct s' as [s'|]; [subst s'|discriminate]. rewrite K. rewrite B in T.
      cbn in T. injection T as <-. apply as_str. exact P.
    + apply given_some in R as [Hb <-]; bools. cbn [p_constr p_type]. constr_pack.
      destruct (x_record_eq _ H) as [fs ->]. cbn in T. injection T as <-. apply as_records. exact P.
    + apply given_some in R as [Hb <-]; bools. cbn [p_constr p_type].
      match goal with H : sz_variable _ = true |- _ => destruct (variable_size _ H) as [l E]; rewrite E in T end.
      match goal with H : only _ _ = true |- _ => destruct (is_pack _ PO H) as (s' & k' & b' & P) end.
      packed. rewrite Sz in E. destruct s' as [s'|]; [subst s'|discriminate]. rewrite K. rewrite B in T.
      destruct (x_record_eq _ H) as [fs ->]. cbn in T. injection T as <-. apply as_vector_records. exact P.
Qed.

Definition tags_taken (a : abi) (tags : list (tag * list opt)) (ps : list plain) : Prop :=
  Forall2 (fun d p => resolve_tag (a_other a) (fst d) (snd d) = Some p) tags ps.

Lemma alts_say_made a tags xs al : alts_say a tags xs al <->
  exists ps, tags_taken a tags ps /\ map p_type ps = xs /\ to_alts (a_sgn a) (a_recsz a) ps = Some al.
Proof.
  split.
  - induction 1 as [|d opts tags x xs t k al H _ (ps & R & E & A)]; [exists []; repeat split; constructor|].
    apply alt_says_made in H as (p & Rp & Ex & Ek & T). exists (p :: ps). split; [constructor; assumption|].
    cbn. rewrite T, A. split; congruence.
  - intros (ps & R & <- & A). revert al A. induction R as [|[d opts] p tags ps H R IH]; intros al A; cbn in A.
    + injection A as <-. constructor.
    + destruct (to_plain _ _ p) as [t|] eqn:T; [|discriminate].
      destruct (to_alts _ _ ps) as [al'|]; [|discriminate]. injection A as <-.
      constructor; [|apply IH; reflexivity]. apply alt_says_made. eauto 6.
Qed.

(** ** Guides *)

Definition typed_case (c : (sty * Z) * (tag * list opt)) : mval * (tag * list opt) :=
  (MInt (fst (fst c)) (snd (fst c)), snd c).

Lemma int_back l : all_some (map to_case (int_cases l)) = Some (map fst l).
Proof.
  unfold int_cases. induction l as [|[[s z] [d o]] l IH]; [reflexivity|].
  cbn [map]. rewrite to_case_cons. rewrite IH. reflexivity.
Qed.

Lemma back_int : forall l cs, all_some (map to_case (case_list l)) = Some cs ->
  exists l', case_list l = int_cases l' /\ map fst l' = cs /\ map snd l' = map snd l.
Proof.
  induction l as [|[v d] l IH]; intros cs H.
  - injection H as <-. exists []. auto.
  - rewrite to_case_cons in H. destruct v as [s z| |]; try discriminate.
    destruct (all_some (map to_case (case_list l))) as [cs'|]; [|discriminate]. injection H as <-.
    destruct (IH _ eq_refl) as (l' & E1 & E2 & E3). exists (((s, z), d) :: l').
    unfold int_cases in *. cbn [map fst snd]. unfold case_list in *. cbn [map fst snd].
    rewrite E1, E2, E3. auto.
Qed.

Lemma branch_back l : all_some (map to_branch (branch_list l)) =
  Some (map (fun b => (fun vs => negb (fst (fst b) vs =? 0)%Z, snd (fst b))) l).
Proof.
  induction l as [|[[f ids] d] l IH]; [reflexivity|]. rewrite to_branch_cons, IH. reflexivity.
Qed.

Lemma told_int szw (l : list ((sty * Z) * (tag * list opt))) :
  Forall2 (told_apart_by szw) (map fst (map typed_case l)) (map (fun z => (z mod pow256 szw)%Z) (map (fun c => snd (fst c)) l)).
Proof.
  induction l as [|[[s z] d] l IH]; constructor; [|exact IH]. apply to_size_t_iff. reflexivity.
Qed.

Lemma guide_says_made a G tg g tags zs : guide_says G tg g tags zs -> tags <> [] ->
  Forall (taken (a_other a)) tags -> NoDup (map (fun z => z mod pow256 (a_szw a))%Z zs) ->
  formed (a_other a) tg = true /\ guide_form tg /\ tags_are tg tags /\
  (exists vs ns, values_are tg vs /\ Forall2 (told_apart_by (a_szw a)) vs ns /\ NoDup ns) /\
  to_guide (disc_of G) tg = Some g.
Proof.
  intros H NE T N.
  assert (S : forall l : list ((sty * Z) * (tag * list opt)), map snd (map typed_case l) = map snd l).
  { intros l. rewrite map_map. reflexivity. }
  destruct H as [id s n l D|f r ids l|l].
  - rewrite <- S in T. destruct (formed_cases _ _ T) as [F1 F2]. change (case_list (map typed_case l)) with (int_cases l) in *.
    assert (map typed_case l <> []) as NL by (intros E; apply NE; rewrite <- S, E; reflexivity).
    split; [|split; [|split; [|split]]].
    + cbn [formed forallb]. rewrite F1, F2. destruct l; [contradiction|]. reflexivity.
    + apply (gf_field id (map typed_case l) NL).
    + rewrite <- S. apply (ta_switch _ (map typed_case l)).
    + eexists _, _. split; [apply (va_switch _ (map typed_case l))|]. split; [apply told_int|exact N].
    + cbn [to_guide]. unfold disc_of. rewrite D, int_back. reflexivity.
  - rewrite <- S in T. destruct (formed_cases _ _ T) as [F1 F2]. change (case_list (map typed_case l)) with (int_cases l) in *.
    assert (map typed_case l <> []) as NL by (intros E; apply NE; rewrite <- S, E; reflexivity).
    split; [|split; [|split; [|split]]].
    + cbn [formed forallb]. rewrite F1, F2. destruct l; [contradiction|]. reflexivity.
    + apply (gf_comp f (RInt r) ids (map typed_case l) NL).
    + rewrite <- S. apply (ta_switch _ (map typed_case l)).
    + eexists _, _. split; [apply (va_switch _ (map typed_case l))|]. split; [apply told_int|exact N].
    + cbn [to_guide]. rewrite int_back. reflexivity.
  - destruct (formed_branches _ _ T) as [F1 F2].
    assert (l <> []) as NL by (intros ->; contradiction).
    split; [|split; [|split; [|split]]].
    + cbn [formed forallb]. rewrite F1, F2. destruct l; [contradiction|]. reflexivity.
    + apply gf_ladder. exact NL.
    + constructor.
    + exists [], []. split; [constructor|]. split; constructor.
    + cbn [to_guide]. rewrite branch_back. reflexivity.
Qed.

Lemma made_guide_says G szw tg g tags : guide_form tg -> tags_are tg tags ->
  to_guide (disc_of G) tg = Some g -> NoDup (match_values_of szw g) ->
  exists zs, guide_says G tg g tags zs /\ tags <> [] /\ NoDup (map (fun z => z mod pow256 szw)%Z zs).
Proof.
  intros F TA T N. destruct F as [id l H|f r ids l H|l H]; cbn [to_guide] in T.
  - pose proof (tags_are_fun _ _ _ TA (ta_switch _ _)) as ->.
    unfold disc_of in T. destruct (tlookup G id) as [[[s| | |] m| | | | | |]|] eqn:D; try discriminate.
    destruct (all_some (map to_case (case_list l))) as [cs|] eqn:E; [|discriminate]. injection T as <-.
    destruct (back_int _ _ E) as (l' & E1 & <- & E3). rewrite E1, <- E3.
    exists (map (fun c => snd (fst c)) l'). split; [eapply gs_field; exact D|]. split.
    + rewrite E3. destruct l; [contradiction|discriminate].
    + cbn in N. rewrite map_map in *. exact N.
  - pose proof (tags_are_fun _ _ _ TA (ta_switch _ _)) as ->.
    destruct r as [r|]; [|discriminate].
    destruct (all_some (map to_case (case_list l))) as [cs|] eqn:E; [|discriminate]. injection T as <-.
    destruct (back_int _ _ E) as (l' & E1 & <- & E3). rewrite E1, <- E3.
    exists (map (fun c => snd (fst c)) l'). split; [apply gs_comp|]. split.
    + rewrite E3. destruct l; [contradiction|discriminate].
    + cbn in N. rewrite map_map in *. exact N.
  - pose proof (tags_are_fun _ _ _ TA (ta_ladder _)) as ->. rewrite branch_back in T. injection T as <-.
    exists []. split; [apply gs_ladder|]. split; [destruct l; [contradiction|discriminate]|constructor].
Qed.

(** ** Members and lists *)

Lemma resolve_c_array sgn other d opts p : resolve sgn other d opts = Some p ->
  (c_array d <-> exists e n, p_type p = XCArray e n).
Proof.
  intros R. unfold resolve in R. destruct (negb (pack_ok opts)); [discriminate|].
  destruct d; cbn [c_array];
    try match type of R with
        | match ?x with SzBytes _ => _ | _ => _ end = _ => destruct x; try discriminate
        end;
    apply given_some in R as [Hb <-]; bools; cbn [p_type];
    (split; [intros []; eauto|intros (e & m & E); try discriminate; try (subst; discriminate); exact I]).
Qed.

Lemma says_class a G id x t k : says a G x t k <->
  exists f, class_of a G id x = Some f /\ to_field (a_sgn a) (a_recsz a) f = Some (t, k).
Proof.
  split.
  - intros H. destruct H as [d opts t k H|d opts t p ids H NC|tg g tags zs xs al opts k H NE HA N1 N2 P].
    + apply (says_made _ id) in H as (p & R & L & T & <-). exists (CField id p).
      cbn [class_of to_field]. rewrite R, L, T. auto.
    + apply (says_made _ id) in H as (q & R & L & T & K). exists (CMaybe (CField id q) p ids).
      cbn [class_of to_field]. rewrite R, L, T. split; [|reflexivity].
      apply resolve_maybe_iff. exists id, q. repeat split; auto.
      intros e n E. apply NC. apply (resolve_c_array _ _ _ _ _ R). eauto.
    + apply alts_say_made in HA as (ps & R & <- & A).
      destruct (guide_says_made a _ _ _ _ _ H NE) as (FM & GF & TA & V & U); auto.
      { clear - R. induction R; constructor; [eexists; eassumption|assumption]. }
      packed. destruct (proj1 (constr_only_iff opts) (conj O O3)) as [Eo|(k' & Eo)];
        (assert (variance (a_szw a) (a_other a) (a_tid a) tg opts = Some ps) as E;
         [apply variance_iff; [exact FM|]; split; [exact GF|]; split; [eauto|];
          split; [rewrite <- (map_map p_type (a_tid a)); exact N1|]; split; [exact V|]; eauto|]);
        exists (CUnion id g ps (constr_in_pack opts)); cbn [class_of to_field];
        rewrite FM, E, U, A, K; auto.
  - intros (f & C & T). destruct x as [d opts|d opts pred ids|tg opts]; cbn [class_of] in C.
    + destruct (resolve _ _ d opts) as [p|] eqn:R; [|discriminate].
      destruct (field_like (CField id p)) eqn:L; [|discriminate]. injection C as <-. cbn in T.
      destruct (to_plain _ _ p) as [t'|] eqn:E; [|discriminate]. injection T as <- <-.
      apply sy_field. apply (made_says a id). exists p. auto.
    + destruct (resolve _ _ d opts) as [p|] eqn:R; [|discriminate].
      destruct (field_like (CField id p)) eqn:L; [|discriminate].
      apply resolve_maybe_iff in C as (id' & p' & [= <- <-] & -> & N & NC). cbn in T.
      destruct (to_plain _ _ p) as [t'|] eqn:E; [|discriminate]. injection T as <- <-.
      apply sy_maybe; [apply (made_says a id); exists p; auto|].
      intros H. apply (resolve_c_array _ _ _ _ _ R) in H as (e & n & H). exact (NC _ _ H).
    + destruct (formed (a_other a) tg) eqn:F; [|discriminate].
      destruct (variance _ _ _ tg opts) as [ps|] eqn:V; [|discriminate].
      destruct (to_guide (disc_of G) tg) as [g|] eqn:U; [|discriminate]. injection C as <-.
      destruct (to_guide_variance _ _ _ _ id _ _ _ _ F V U) as (RV & _ & _).
      apply resolve_variance_iff in RV as (? & _ & _ & _ & RV).
      apply variance_iff in V as (GF & (tags & TA & R) & ND & _ & HO); [|exact F].
      cbn in T. destruct (to_alts _ _ ps) as [al|] eqn:A; [|discriminate]. injection T as <- <-.
      destruct (made_guide_says G (a_szw a) tg g tags GF TA U RV) as (zs & GS & NE & N2).
      assert (exists k, pack opts None k None /\ constr_in_pack opts = constraint_of k) as (k & P & ->).
      { destruct HO as [->|(k & ->)]; [exists None|exists (Some k)]; split; try reflexivity; apply Permutation_refl. }
      apply sy_variance with (tags := tags) (zs := zs) (xs := map p_type ps); auto.
      * apply alts_say_made. exists ps. auto.
      * rewrite map_map. exact ND.
Qed.

Lemma declares_iff a : forall ds G fs, declares a G ds fs <-> declare_list a G ds = Some fs.
Proof.
  induction ds as [|[id x] ds IH]; intros G fs; cbn [declare_list].
  - split; [inversion 1; reflexivity|intros E; injection E as <-; constructor].
  - split.
    + intros H. inversion H as [|? ? ? ? t k fs' S D]; subst.
      apply (says_class _ _ id) in S as (f & C & T). apply IH in D. rewrite C, T, D. reflexivity.
    + intros H. destruct (class_of a G id x) as [f|] eqn:C; [|discriminate].
      destruct (to_field _ _ f) as [[t k]|] eqn:T; [|discriminate].
      destruct (declare_list a _ ds) as [fs'|] eqn:D; [|discriminate]. injection H as <-.
      constructor; [apply (says_class _ _ id); eauto|apply IH; exact D].
Qed.

Lemma declares_unique a G ds fs fs' : declares a G ds fs -> declares a G ds fs' -> fs = fs'.
Proof. rewrite !declares_iff. congruence. Qed.

Lemma declares_exact a ds fs : named fs ->
  (struct_field_list a ds = Some fs <->
   declares a [] ds fs /\ NoDup (f_ids fs) /\ small fs /\ uses_earlier_or_itself fs).
Proof.
  intros N. rewrite declares_iff. unfold struct_field_list.
  assert (A : declare_list a [] ds = Some fs ->
    (list_accepted fs = true <-> NoDup (f_ids fs) /\ small fs /\ uses_earlier_or_itself fs)).
  { intros D. apply (declare_list_ok a) in D as [K _].
    assert (P : forall id t k, In (id, t, k) (f_list fs) -> StaticSpec.described (a_szw a) k t).
    { intros id t k Ht. destruct (fields_ok_in _ _ _ _ _ _ K Ht) as (G & O). eapply field_ok_described; eauto. }
    apply (accepted_list_named fs (described_plain _ _ P) N). }
  split.
  - destruct (declare_list a [] ds) as [gs|]; [|discriminate].
    destruct (list_accepted gs) eqn:L; [|discriminate]. intros E. injection E as ->.
    split; [reflexivity|]. apply A; auto.
  - intros [D H]. apply (A D) in H. rewrite D, H. reflexivity.
Qed.

(** ** Order of options *)

Lemma alt_reordered a d o o' x t k : Permutation o o' -> alt_says a d o x t k -> alt_says a d o' x t k.
Proof. intros P H. destruct H; econstructor; eauto using pack_perm. Qed.

Lemma plain_reordered a d o o' t k : Permutation o o' -> plain_says a d o t k -> plain_says a d o' t k.
Proof.
  intros P H. destruct H; try (econstructor; eauto using pack_perm);
    apply Permutation_nil in P; subst; constructor; reflexivity.
Qed.

Lemma alts_reordered a tags tags' : Forall2 reordered_tag tags tags' -> forall xs al,
  alts_say a tags xs al -> alts_say a tags' xs al.
Proof.
  induction 1 as [|? ? tags tags' H _ IH]; intros xs al S; [exact S|]. destruct H as [d o o' P].
  inversion S; subst. constructor; eauto using alt_reordered.
Qed.

Lemma cases_reordered : forall l l2, Forall2 reordered_case (int_cases l) l2 ->
  exists l', l2 = int_cases l' /\ map fst l' = map fst l /\ Forall2 reordered_tag (map snd l) (map snd l').
Proof.
  induction l as [|[[s z] [d o]] l IH]; intros l2 H; inversion H as [|? ? ? ? R H']; subst.
  - exists []. repeat split. constructor.
  - destruct (IH _ H') as (m & -> & E & F). inversion R as [? ? ? o' P|]; subst.
    exists (((s, z), (d, o')) :: m). cbn [map fst snd]. rewrite E. repeat split. constructor; [constructor; exact P|exact F].
Qed.

Lemma branches_reordered : forall l l2, Forall2 reordered_case (branch_list l) l2 ->
  exists l', l2 = branch_list l' /\ map fst l' = map fst l /\ Forall2 reordered_tag (map snd l) (map snd l').
Proof.
  induction l as [|[[f ids] [d o]] l IH]; intros l2 H; inversion H as [|? ? ? ? R H']; subst.
  - exists []. repeat split. constructor.
  - destruct (IH _ H') as (m & -> & E & F). inversion R as [|? ? ? o' P]; subst.
    exists ((f, ids, (d, o')) :: m). cbn [map fst snd]. rewrite E. repeat split. constructor; [constructor; exact P|exact F].
Qed.

Lemma guide_reordered G t t' g tags zs : reordered_guide t t' -> guide_says G t g tags zs ->
  exists tags', guide_says G t' g tags' zs /\ Forall2 reordered_tag tags tags'.
Proof.
  intros R S. destruct S as [id s n l D|f r ids l|l]; inversion R as [? ? l2 F|? l2 F]; subst.
  - apply cases_reordered in F as (l' & -> & E & F). exists (map snd l'). split; [|exact F].
    rewrite <- E, <- (map_map fst snd), <- E, (map_map fst snd). eapply gs_field. exact D.
  - apply cases_reordered in F as (l' & -> & E & F). exists (map snd l'). split; [|exact F].
    rewrite <- E, <- (map_map fst snd), <- E, (map_map fst snd). apply gs_comp.
  - apply branches_reordered in F as (l' & -> & E & F). exists (map snd l'). split; [|exact F].
    rewrite <- (map_map fst (fun b : (list val -> Z) * list ident => (fun vs => negb (fst b vs =? 0)%Z, snd b))).
    rewrite <- E. rewrite map_map. apply gs_ladder.
Qed.

Lemma says_reordered a G id x id' x' t k : reordered (id, x) (id', x') -> says a G x t k ->
  id = id' /\ says a G x' t k.
Proof.
  intros R S. inversion R as [? ? ? ? P|? ? ? ? ? ? P|? ? ? ? ? P RG]; subst; (split; [reflexivity|]);
    inversion S as [? ? ? ? H|? ? ? ? ? H NC|? ? ? ? ? ? ? ? H NE HA N1 N2 K]; subst.
  - apply sy_field. eauto using plain_reordered.
  - apply sy_maybe; eauto using plain_reordered.
  - destruct (guide_reordered _ _ _ _ _ _ RG H) as (tags' & H' & F).
    apply sy_variance with (tags := tags') (zs := zs) (xs := xs); eauto using alts_reordered, pack_perm.
    intros ->. inversion F. subst. contradiction.
Qed.

Lemma declares_reordered a ds ds' : Forall2 reordered ds ds' -> forall G fs,
  declares a G ds fs -> declares a G ds' fs.
Proof.
  induction 1 as [|[id x] [id' x'] ds ds' R _ IH]; intros G fs D; [exact D|].
  inversion D as [|? ? ? ? t k fs' H1 H2]; subst. destruct (says_reordered a G _ _ _ _ _ _ R H1) as [<- S].
  constructor; auto.
Qed.

Lemma F2_sym {A} (R : A -> A -> Prop) : (forall x y, R x y -> R y x) ->
  forall l l', Forall2 R l l' -> Forall2 R l' l.
Proof. intros S. induction 1; constructor; auto. Qed.

Lemma reordered_sym x y : reordered x y -> reordered y x.
Proof.
  assert (C : forall x y, reordered_case x y -> reordered_case y x).
  { intros u v []; constructor; apply Permutation_sym; assumption. }
  intros []; constructor; try (apply Permutation_sym; assumption).
  destruct H0; constructor; apply (F2_sym _ C); assumption.
Qed.

Lemma declare_reordered a ds ds' : Forall2 reordered ds ds' ->
  struct_field_list a ds = struct_field_list a ds'.
Proof.
  intros F. unfold struct_field_list. 
  assert (E : declare_list a [] ds = declare_list a [] ds').
  { destruct (declare_list a [] ds) as [fs|] eqn:D.
    - symmetry. apply declares_iff. apply (declares_reordered _ _ _ F). apply declares_iff. exact D.
    - destruct (declare_list a [] ds') as [fs|] eqn:D'; [|reflexivity].
      apply declares_iff in D'. apply (declares_reordered _ _ _ (F2_sym _ reordered_sym _ _ F)) in D'.
      apply declares_iff in D'. congruence. }
  rewrite E. reflexivity.
Qed.
