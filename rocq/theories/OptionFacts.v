(** * Constraint classes, magic descriptors, bounds and lists: proofs *)
From Coq Require Import ZifyBool ZifyNat Lia.
From Verif Require Import OptionSpec.
Import ListNotations.

Lemma structural_iff t : x_structural t = true <-> value_type t.
Proof.
  induction t; simpl; split; intros H; try discriminate; try constructor;
    try (inversion H; subst); auto; try (apply IHt; auto).
Qed.

Lemma eq_structural t : x_structural t = true -> x_eq t = true.
Proof. induction t; simpl; auto; discriminate. Qed.

Lemma ord_numeric t : x_structural t && x_ord t = true <-> numeric t.
Proof.
  induction t; simpl; split; intros H; try discriminate; try constructor;
    try (inversion H; subst); auto; try (apply IHt; auto).
Qed.

Lemma discrete_leaf t : discrete t -> x_structural t = true /\ x_floating t = false.
Proof. induction 1; simpl; auto. tauto. Qed.

Lemma usable_iff c t :
  ~ (c = KGte /\ exists n, t = XFixStr n) ->
  ~ ((c = KEq \/ c = KNeq) /\ exists e n, t = XArray e n) ->
  (constraint_usable c t = true <-> documented c t).
Proof.
  intros G1 G2. unfold constraint_usable, class_constraint, body_compiles,
    equality_comparable, comparable, inequality_comparable, documented.
  assert (E : forall c', (c' = KEq \/ c' = KNeq) ->
            ~ ((c' = KEq \/ c' = KNeq) /\ exists e n, t = XArray e n) ->
            (x_eq t && negb (x_floating t) && x_eq t && x_structural t = true <-> discrete t)).
  { intros c' Hc G. destruct t; simpl; split; intros H; try discriminate; try constructor;
      auto; try (inversion H; fail).
    - exfalso. apply G. eauto.
    - exfalso. apply G. eauto.
    - destruct (x_eq t); discriminate. }
  destruct c.
  - apply (E KEq); auto.
  - apply (E KNeq); auto.
  - rewrite <- ord_numeric. destruct (x_ord t), (x_structural t); simpl; tauto.
  - rewrite <- ord_numeric. destruct (x_ord t), (x_structural t); simpl; tauto.
  - rewrite <- ord_numeric. destruct (x_ord t), (x_structural t); simpl; tauto.
  - destruct t; simpl; split; intros H; try discriminate; auto;
      try (destruct H as [[? H]|[? H]]; discriminate); try (left; eauto; fail).
    + rewrite andb_false_r in H. discriminate.
    + exfalso. apply G1. eauto.
    + rewrite andb_false_r in H. discriminate.
  - simpl. tauto.
  - rewrite <- structural_iff. pose proof (eq_structural t).
    destruct (x_structural t), (x_eq t); simpl; split; auto; try discriminate; intuition.
Qed.

Lemma eq_iff t : x_eq t = true <-> equatable t.
Proof.
  induction t; simpl; split; intros H; try discriminate; try constructor;
    try (inversion H; subst); auto; try (apply IHt; auto).
Qed.

Lemma ord_iff t : x_ord t = true <-> orderable t.
Proof.
  induction t; simpl; split; intros H; try discriminate; try constructor;
    try (inversion H; subst); auto; try (apply IHt; auto).
Qed.

Lemma floating_iff t : x_floating t = true <-> exists w, t = XFloat w.
Proof. destruct t; simpl; split; intros H; try discriminate; eauto; destruct H; discriminate. Qed.

Lemma concepts t :
  (equality_comparable t = true <-> equatable t /\ ~ exists w, t = XFloat w) /\
  (comparable t = true <-> orderable t) /\
  (inequality_comparable t = true <-> exists s, t = XInt s).
Proof.
  split; [|split].
  - unfold equality_comparable. rewrite <- eq_iff, <- floating_iff.
    destruct (x_eq t), (x_floating t); simpl; intuition discriminate.
  - apply ord_iff.
  - unfold inequality_comparable, comparable.
    destruct t; simpl; rewrite ?andb_false_r; split; intros H; try discriminate; eauto;
      destruct H; discriminate.
Qed.

Lemma usable_exact t :
  (constraint_usable KEq t = true <-> value_type t /\ ~ exists w, t = XFloat w) /\
  (constraint_usable KNeq t = true <-> value_type t /\ ~ exists w, t = XFloat w) /\
  (constraint_usable KGte t = true <-> exists s, t = XInt s).
Proof.
  assert (E : x_eq t && negb (x_floating t) && x_eq t && x_structural t = true <->
              value_type t /\ ~ exists w, t = XFloat w).
  { rewrite <- structural_iff, <- floating_iff. pose proof (eq_structural t) as P.
    destruct (x_eq t), (x_floating t), (x_structural t); simpl; intuition discriminate. }
  split; [exact E|split; [exact E|]].
  unfold constraint_usable, class_constraint, body_compiles, inequality_comparable, comparable.
  destruct t; simpl; rewrite ?andb_false_r; split; intros H; try discriminate; eauto;
    try (destruct H; discriminate).
Qed.

(** ** Magic descriptors *)

Lemma magic_spelled sgn other d d' opts p : spelled_out d = Some (d', opts) ->
  resolve sgn other d' opts = Some p -> resolve sgn other d [] = Some p.
Proof.
  destruct d; try discriminate; simpl; intros H; inversion H; subst; clear H.
  - unfold resolve. simpl. rewrite Nat.mul_1_r. auto.
  - unfold resolve. simpl. auto.
  - unfold resolve. simpl. destruct sz; try discriminate.
    destruct (x_integral t); simpl; try discriminate.
    destruct (Nat.leb n (x_size other t)); simpl; auto; discriminate.
Qed.

Lemma magic_spelled_conv sgn other d d' opts p : spelled_out d = Some (d', opts) ->
  (forall t sz s lit n, d = MagicNumber t sz s lit -> sz = SzBytes n -> (n <= x_size other t)%nat) ->
  resolve sgn other d [] = Some p -> resolve sgn other d' opts = Some p.
Proof.
  destruct d; try discriminate; simpl; intros H; inversion H; subst; clear H; intros Hn.
  - unfold resolve. simpl. rewrite Nat.mul_1_r. auto.
  - unfold resolve. simpl. auto.
  - unfold resolve. simpl. destruct sz; simpl; try (rewrite andb_false_r; discriminate).
    rewrite (proj2 (Nat.leb_le _ _) (Hn _ _ _ _ n eq_refl eq_refl)).
    destruct (x_integral t); simpl; auto; discriminate.
Qed.

(** ** Bounds *)

Lemma only_none p q opts : only p opts = true -> (forall o, p o = true -> q o = false) ->
  forall o, In o opts -> q o = false.
Proof.
  intros H Hq o Ho. unfold only in H. rewrite forallb_forall in H. auto.
Qed.

Lemma bound_container sgn other d opts p b : resolve sgn other d opts = Some p ->
  In (OptBound b) opts -> container d.
Proof.
  unfold resolve. destruct (negb (pack_ok opts)); [discriminate|].
  assert (N : forall q, (forall o, q o = true -> is_bound o = false) -> only q opts = true ->
              ~ In (OptBound b) opts).
  { intros q Hq Ho Hi. pose proof (only_none _ _ _ Ho Hq _ Hi). discriminate. }
  assert (N1 : only is_constr opts = true -> ~ In (OptBound b) opts)
    by (apply N; intros []; simpl; auto; discriminate).
  assert (N2 : only (fun o => is_size o || is_constr o) opts = true -> ~ In (OptBound b) opts)
    by (apply N; intros []; simpl; auto; discriminate).
  intros H Hi. destruct d; simpl; auto.
  - destruct (size_in_pack _ _); try discriminate.
    destruct (x_integral t); try discriminate. simpl in H.
    destruct (only (fun o => is_size o || is_constr o) opts); [tauto|discriminate].
  - destruct (only is_constr opts); [tauto|]. rewrite andb_false_r in H. discriminate.
  - destruct (only is_constr opts); [tauto|]. rewrite andb_false_r in H. discriminate.
  - destruct (only is_constr opts); [tauto|]. discriminate.
  - destruct (only is_constr opts); [tauto|]. rewrite andb_false_r in H. discriminate.
  - destruct (only is_constr opts); [tauto|]. discriminate.
  - destruct opts; [destruct Hi|discriminate].
  - destruct opts; [destruct Hi|discriminate].
  - destruct opts; [destruct Hi|]. rewrite andb_false_r in H. discriminate.
  - destruct (only is_constr opts); [tauto|]. rewrite andb_false_r in H. discriminate.
Qed.

Lemma in_pack_bound b opts : pack_ok opts = true -> In (OptBound b) opts -> bound_in_pack opts = b.
Proof.
  unfold pack_ok. rewrite !andb_true_iff. intros [_ H] Hi. apply Nat.leb_le in H.
  assert (Z : forall l, count is_bound l = 0%nat -> ~ In (OptBound b) l).
  { induction l; simpl; auto. intros Hc [->|Hl].
    - discriminate.
    - destruct (is_bound a); [discriminate|]. apply IHl; auto. }
  induction opts as [|o opts IH]; [destruct Hi|]. destruct Hi as [->|Hi]; [reflexivity|].
  destruct o; simpl in *; auto. exfalso. eapply Z; [|exact Hi]. lia.
Qed.

Lemma bound_kept sgn other d opts p b : resolve sgn other d opts = Some p ->
  In (OptBound b) opts -> p_bound p = b.
Proof.
  intros H Hi. pose proof (bound_container _ _ _ _ _ _ H Hi) as C. unfold resolve in H.
  destruct (pack_ok opts) eqn:Ep; [|discriminate]. pose proof (in_pack_bound b opts Ep Hi) as Hb.
  destruct d; simpl in C; try tauto; simpl in H;
    match type of H with (if ?x then _ else _) = _ => destruct x; [|discriminate] end;
    inversion H; subst; auto.
Qed.

(** ** maybe *)

Lemma resolve_size sgn other d opts p : resolve sgn other d opts = Some p ->
  p_size p <> SzChoices.
Proof.
  unfold resolve. destruct (negb (pack_ok opts)); [discriminate|].
  assert (V : forall s, sz_variable s = true -> s <> SzChoices) by (intros []; simpl; discriminate).
  assert (F : forall s, sz_fixed s = true -> s <> SzChoices) by (intros []; simpl; discriminate).
  destruct d; intros H;
    repeat match type of H with
           | (if ?b then _ else _) = _ => destruct b eqn:?; [|discriminate]
           | match ?x with _ => _ end = _ => destruct x eqn:?; try discriminate
           end;
    inversion H; subst; simpl; try discriminate;
    repeat match goal with G : _ && _ = true |- _ => apply andb_true_iff in G; destruct G end; auto.
Qed.

Lemma maybe_deps sgn other d opts p id pred ids f : resolve sgn other d opts = Some p ->
  resolve_maybe (CField id p) pred ids = Some f ->
  (has_length_deps f = true <-> p_bound p = None).
Proof.
  intros Hr. apply resolve_size in Hr. unfold resolve_maybe.
  destruct (p_constr p); try discriminate.
  assert (X : has_length_deps (CMaybe (CField id p) pred ids) = true <-> p_bound p = None).
  { simpl. destruct (p_bound p).
    - split; discriminate.
    - split; auto. intros _. destruct (p_size p) as [| [] | |]; auto; congruence. }
  destruct (p_type p); intros H; inversion H; subst; exact X.
Qed.

Lemma maybe_base f pred ids :
  has_length_deps (CMaybe f pred ids) = true <->
  exists id p, f = CField id p /\ p_bound p = None /\ has_length_deps f = true.
Proof.
  destruct f as [id p|g q js|id td ps c]; cbn [has_length_deps].
  - split.
    + destruct (p_bound p) eqn:B; [discriminate|]. intros H. exists id, p. auto.
    + intros (i&q&E&B&H). injection E as <- <-. rewrite B. exact H.
  - split; [discriminate|]. intros (?&?&X&_); discriminate.
  - split; [discriminate|]. intros (?&?&X&_); discriminate.
Qed.

Lemma union_deps id td ps c : has_length_deps (CUnion id td ps c) = true <->
  forall p i, In p ps -> has_length_deps (CField i p) = true.
Proof.
  cbn [has_length_deps]. rewrite forallb_forall. split; intros H; [intros p _; apply H|intros p; apply H; exact id].
Qed.

(** ** Lists *)

Lemma all_same_iff {A} (same : A -> A -> bool) (l : list A) :
  (forall x y, same x y = true <-> x = y) ->
  (tl_all_same same l = true <-> forall x y, In x l -> In y l -> x = y).
Proof.
  intros Hs. induction l as [|t l IH]; [simpl; split; auto; intros _ ? ? []|].
  destruct l as [|u l].
  - simpl. split; auto. intros _ x y [<-|[]] [<-|[]]. auto.
  - change (tl_all_same same (t :: u :: l)) with (same t u && tl_all_same same (u :: l)).
    rewrite andb_true_iff, Hs, IH. split.
    + intros [-> H] x y [<-|Hx] [<-|Hy]; auto.
      * apply H; simpl; auto.
      * apply H; simpl; auto.
    + intros H. split; [apply H; simpl; auto|]. intros x y Hx Hy. apply H; simpl in *; auto.
Qed.

Lemma any_of_iff {A} (same : A -> A -> bool) (l : list A) t :
  (forall x y, same x y = true <-> x = y) -> (tl_any_of same l t = true <-> In t l).
Proof.
  intros Hs. induction l as [|u l IH]; simpl; [split; [discriminate|tauto]|].
  destruct (same u t) eqn:E; simpl.
  - apply Hs in E. tauto.
  - rewrite IH. split; auto. intros [->|H]; auto. exfalso.
    rewrite (proj2 (Hs t t) eq_refl) in E. discriminate.
Qed.

Lemma fsl_size_length l : fsl_size l = length l.
Proof. induction l; simpl; auto. Qed.

Lemma fsl_get_from l : forall idx key, (idx <= key)%nat ->
  fsl_get idx key l = nth_error l (key - idx).
Proof.
  induction l as [|h l IH]; intros idx key H; simpl.
  - destruct (key - idx)%nat; reflexivity.
  - destruct (Nat.eqb_spec idx key) as [->|Hn].
    + rewrite Nat.sub_diag. reflexivity.
    + rewrite IH by lia. replace (key - idx)%nat with (S (key - (idx + 1)))%nat by lia. reflexivity.
Qed.

Lemma fsl_get_nth key l : fsl_get 0 key l = nth_error l key.
Proof. rewrite fsl_get_from by lia. f_equal. lia. Qed.

Lemma fsl_pop_skipn l : forall n, fsl_pop n l = skipn n l.
Proof. induction l as [|h l IH]; intros [|n]; simpl; auto. Qed.

Lemma so_eq_nullopt_iff A (d : A) (o : option A) :
  so_eq_nullopt (so_of_std d o) = true <-> exists a, o = Some a.
Proof.
  destruct o as [a|]; cbn; split; intros H; try discriminate; eauto. now destruct H.
Qed.

Lemma so_of_std_holds {A} (d : A) (o : option A) :
  (so_to_bool (so_of_std d o) = true <-> exists a, o = Some a) /\
  (forall a, o = Some a -> so_deref (so_of_std d o) = a).
Proof.
  destruct o; simpl; split; try (intros; congruence).
  - split; eauto.
  - split; [discriminate|]. intros [a H]. discriminate.
Qed.

Lemma so_made {A} (d a : A) :
  so_to_bool (so_of a) = true /\ so_deref (so_of a) = a /\ so_to_bool (so_none d) = false /\
  so_none d = so_of_std d None /\ so_of a = so_of_std d (Some a).
Proof. auto. Qed.

Lemma front_is {A} (null t : A) l : tl_front null (t :: l) = t /\ tl_front null [] = null.
Proof. auto. Qed.
