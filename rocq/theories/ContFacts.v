(** The constexpr containers: facts. *)
From Coq Require Import String Permutation Lia ZifyBool ZifyNat.
From Verif Require Import Static StaticSpec StaticFacts MoreSpec.
Local Open Scope list_scope.

Section Once.
Context {A : Type} (eqb : A -> A -> bool) (eqb_eq : forall x y, eqb x y = true <-> x = y).

Lemma once_in l x : In x (once eqb l) <-> In x l.
Proof.
  induction l as [|y l IH]; [reflexivity|]. cbn [once In]. rewrite filter_In, IH.
  destruct (eqb y x) eqn:E.
  - apply eqb_eq in E. simpl. intuition congruence.
  - simpl. intuition congruence.
Qed.

Lemma once_nodup l : NoDup (once eqb l).
Proof.
  induction l as [|y l IH]; [constructor|]. cbn [once]. constructor.
  - rewrite filter_In. intros [_ H]. rewrite (proj2 (eqb_eq y y) eq_refl) in H. discriminate.
  - apply NoDup_filter. auto.
Qed.

Lemma once_same l : NoDup l -> once eqb l = l.
Proof.
  induction 1 as [|y l Hn _ IH]; [reflexivity|]. cbn [once]. rewrite IH. f_equal.
  clear IH. induction l as [|z l IHl]; [reflexivity|]. cbn [filter].
  destruct (eqb y z) eqn:E.
  - apply eqb_eq in E. subst. exfalso. apply Hn. left. auto.
  - simpl. rewrite IHl; auto. intros H. apply Hn. right. auto.
Qed.

Lemma once_spec l : NoDup (once eqb l) /\ (forall x, In x (once eqb l) <-> In x l) /\
  (NoDup l -> once eqb l = l).
Proof. split; [apply once_nodup|]. split; [intros; apply once_in|apply once_same]. Qed.

Lemma existsb_in l x : existsb (eqb x) l = true <-> In x l.
Proof.
  rewrite existsb_exists. split.
  - intros (y & Hy & E). apply eqb_eq in E. subst. auto.
  - intros H. exists x. split; auto. apply eqb_eq. auto.
Qed.

Lemma filter_filter {B} (p q : B -> bool) l : filter p (filter q l) = filter (fun x => q x && p x) l.
Proof.
  induction l as [|x l IH]; [reflexivity|]. cbn [filter]. destruct (q x); simpl; [|auto].
  destruct (p x); rewrite IH; auto.
Qed.

Lemma insert_all_once N vs : forall l, NoDup l -> (length l <= N)%nat ->
  set_insert_all eqb N l vs =
    let r := l ++ filter (fun x => negb (existsb (eqb x) l)) (once eqb vs) in
    if Nat.leb (length r) N then Some r else None.
Proof.
  induction vs as [|v vs IH]; intros l Hn Hl; cbn [set_insert_all once filter].
  - simpl. rewrite app_nil_r. replace (Nat.leb (length l) N) with true by lia. auto.
  - unfold set_insert. destruct (Nat.eqb (find_index eqb l v) (length l)) eqn:E.
    + apply (find_index_mem eqb eqb_eq) in E.
      assert (Ev : existsb (eqb v) l = false).
      { destruct (existsb (eqb v) l) eqn:X; auto. apply existsb_in in X. tauto. }
      rewrite Ev. cbn [negb]. rewrite filter_filter. unfold push_back.
      assert (F : forall l', filter (fun x => negb (existsb (eqb x) (l ++ [v]))) l' =
                  filter (fun x => negb (eqb v x) && negb (existsb (eqb x) l)) l').
      { intros l'. apply filter_ext. intros x. rewrite existsb_app. simpl. rewrite orb_false_r, negb_orb.
        rewrite andb_comm. f_equal. f_equal.
        destruct (eqb x v) eqn:E1, (eqb v x) eqn:E2; auto.
        - apply eqb_eq in E1. subst. rewrite (proj2 (eqb_eq v v) eq_refl) in E2. discriminate.
        - apply eqb_eq in E2. subst. rewrite (proj2 (eqb_eq x x) eq_refl) in E1. discriminate. }
      destruct (Nat.ltb_spec (length l) N) as [Hlt|Hge].
      * rewrite IH; [|apply nodup_snoc; auto|rewrite app_length; simpl; lia].
        cbn zeta. rewrite F, <- app_assoc. reflexivity.
      * cbn zeta. rewrite app_length. cbn [length].
        replace (Nat.leb _ N) with false by lia. auto.
    + assert (Hin : existsb (eqb v) l = true).
      { destruct (existsb (eqb v) l) eqn:X; auto. exfalso.
        assert (H : ~ In v l) by (intros H; apply existsb_in in H; congruence).
        apply (find_index_mem eqb eqb_eq) in H. congruence. }
      rewrite Hin. cbn [negb]. rewrite filter_filter, IH by auto. cbn zeta.
      replace (filter (fun x => negb (eqb v x) && negb (existsb (eqb x) l)) (once eqb vs))
        with (filter (fun x => negb (existsb (eqb x) l)) (once eqb vs)); auto.
      apply filter_ext. intros x. destruct (eqb v x) eqn:E2; auto.
      apply eqb_eq in E2. subst. rewrite Hin. auto.
Qed.

Lemma set_once N vs : static_set eqb N vs =
  if Nat.leb (length (once eqb vs)) N then Some (once eqb vs) else None.
Proof.
  unfold static_set. rewrite insert_all_once by (auto using NoDup_nil; simpl; lia). cbn zeta.
  assert (F : forall l, filter (fun x => negb (existsb (eqb x) [])) l = l).
  { induction l as [|y l IHl]; [reflexivity|]. cbn [filter existsb negb]. f_equal. exact IHl. }
  rewrite F. reflexivity.
Qed.

Lemma find_index_spec l v :
  (find_index eqb l v <= length l)%nat /\
  (forall i x, (i < find_index eqb l v)%nat -> nth_error l i = Some x -> x <> v) /\
  ((find_index eqb l v < length l)%nat -> nth_error l (find_index eqb l v) = Some v).
Proof.
  unfold find_index, find_index_if.
  induction l as [|y l IH]; cbn [find_index_from length].
  - split; [lia|]. split; [intros i x Hi; lia|intros Hi; lia].
  - destruct (eqb y v) eqn:E.
    + split; [lia|]. split; [intros i x Hi; lia|]. intros _. apply eqb_eq in E. subst. reflexivity.
    + rewrite find_shift. destruct IH as (H1 & H2 & H3). split; [lia|]. split.
      * intros [|i] x Hi Hx; cbn [nth_error] in Hx; [|eapply H2; eauto; lia].
        inversion Hx; subst. intros ->. rewrite (proj2 (eqb_eq v v) eq_refl) in E. discriminate.
      * intros Hlt. cbn [nth_error]. apply H3. lia.
Qed.
End Once.

Lemma last_value_rev {V} (es : list (ident * V)) key : assoc (rev es) key = last_value es key.
Proof.
  induction es as [|[k v] es IH]; [reflexivity|]. cbn [rev last_value]. rewrite assoc_app, IH.
  destruct (last_value es key); auto.
Qed.

Lemma map_get_last {V} N (zero : V) es m key : static_map N zero es = Some m ->
  (key <> EmptyString \/ length es = N) -> map_get m key = last_value es key.
Proof.
  intros H Hk. apply map_facts in H. destruct H as (HL & _ & H).
  rewrite H, rev_repeat, assoc_repeat, last_value_rev.
  replace (Nat.ltb 0 (N - length es) && String.eqb EmptyString key)%bool with false; auto.
  destruct Hk as [Hk|Hk].
  - destruct (String.eqb_spec EmptyString key); [congruence|]. rewrite andb_false_r. auto.
  - replace (Nat.ltb 0 (N - length es)) with false by lia. auto.
Qed.

(** ** String comparison is a strict order *)

Lemma ascii_compare_eq a b : Ascii.compare a b = Eq <-> a = b.
Proof.
  unfold Ascii.compare. rewrite N.compare_eq_iff. split; [|congruence].
  intros H. rewrite <- (Ascii.ascii_N_embedding a), <- (Ascii.ascii_N_embedding b). congruence.
Qed.

Lemma compare_lt_trans : forall x y z, String.compare x y = Lt -> String.compare y z = Lt ->
  String.compare x z = Lt.
Proof.
  induction x as [|a x IH]; intros [|b y] [|d z]; simpl; try discriminate; auto.
  destruct (Ascii.compare a b) eqn:E1; try discriminate; destruct (Ascii.compare b d) eqn:E2; try discriminate;
    intros H1 H2.
  - apply ascii_compare_eq in E1, E2. subst. rewrite (proj2 (ascii_compare_eq d d) eq_refl). eauto.
  - apply ascii_compare_eq in E1. subst. rewrite E2. auto.
  - apply ascii_compare_eq in E2. subst. rewrite E1. auto.
  - replace (Ascii.compare a d) with Lt; auto. symmetry. unfold Ascii.compare in *.
    rewrite N.compare_lt_iff in *. lia.
Qed.

Lemma compare_refl x : String.compare x x = Eq.
Proof.
  induction x as [|a x IH]; simpl; auto. rewrite (proj2 (ascii_compare_eq a a) eq_refl). auto.
Qed.

Lemma compare_eq : forall x y, String.compare x y = Eq -> x = y.
Proof.
  induction x as [|a x IH]; intros [|b y]; simpl; try discriminate; auto.
  destruct (Ascii.compare a b) eqn:E; try discriminate. intros H.
  apply ascii_compare_eq in E. subst. f_equal. auto.
Qed.

Lemma compare_flip : forall x y, String.compare x y = Gt -> String.compare y x = Lt.
Proof.
  induction x as [|a x IH]; intros [|b y]; simpl; try discriminate; auto.
  unfold Ascii.compare. rewrite (N.compare_antisym (Ascii.N_of_ascii a) (Ascii.N_of_ascii b)).
  destruct (N.compare (Ascii.N_of_ascii a) (Ascii.N_of_ascii b)); simpl; auto; discriminate.
Qed.

Lemma ltb_lt x y : String.ltb x y = true <-> String.compare x y = Lt.
Proof. unfold String.ltb. destruct (String.compare x y); split; congruence. Qed.

(** The table is in strictly ascending order of its keys, which are those given, and
    the empty one if there was room. *)
Lemma map_sorted {V} N (zero : V) es m : static_map N zero es = Some m ->
  ascending (fun a b => String.compare a b = Lt) (map fst m) /\
  forall key, In key (map fst m) <->
    In key (map fst es) \/ (key = EmptyString /\ (length es < N)%nat).
Proof.
  intros H. pose proof (map_facts _ _ _ _ H) as (HL & HN & HG).
  split.
  - unfold static_map in H. destruct (Nat.ltb N (length es)) eqn:E; [discriminate|]. injection H as <-.
    set (r := fold_left map_put _ _) in *. clearbody r.
    assert (A : ascending (fun x y => key_less y x = false) (sort_ranges key_less r)).
    { apply (sort_ascending (@key_less V)); unfold leq.
      - intros x y z H1 H2. unfold key_less in *. destruct (String.ltb (fst z) (fst x)) eqn:C; auto.
        apply ltb_lt in C. exfalso.
        destruct (String.compare (fst z) (fst y)) eqn:Czy.
        + apply compare_eq in Czy. rewrite Czy in C. apply ltb_lt in C. congruence.
        + apply ltb_lt in Czy. congruence.
        + apply compare_flip in Czy. assert (String.compare (fst y) (fst x) = Lt) by eauto using compare_lt_trans.
          apply ltb_lt in H. congruence.
      - intros x y H1. unfold key_less in *. apply ltb_lt in H1.
        destruct (String.ltb (fst y) (fst x)) eqn:C; auto. apply ltb_lt in C.
        pose proof (compare_lt_trans _ _ _ H1 C) as X. rewrite compare_refl in X. discriminate. }
    clear HG. induction A as [|x l Hx A IH]; [constructor|]. cbn [map] in *. inversion HN as [|? ? Hni HN']; subst.
    constructor; auto. clear IH A HN HN'.
    rewrite Forall_forall in *. intros k Hk. apply in_map_iff in Hk. destruct Hk as (y & <- & Hy).
    specialize (Hx _ Hy). unfold key_less in Hx.
    destruct (String.compare (fst x) (fst y)) eqn:C; auto.
    + apply compare_eq in C. exfalso. apply Hni. rewrite C. apply in_map. auto.
    + apply compare_flip, ltb_lt in C. congruence.
  - intros key. assert (I : In key (map fst m) <-> map_get m key <> None).
    { rewrite map_get_assoc. pose proof (assoc_none m key). destruct (in_dec String.string_dec key (map fst m)); tauto. }
    assert (I2 : In key (map fst es) <-> assoc (rev es) key <> None).
    { pose proof (assoc_none (rev es) key) as X. rewrite map_rev, <- in_rev in X.
      destruct (in_dec String.string_dec key (map fst es)); tauto. }
    rewrite I, HG, I2, rev_repeat, assoc_repeat.
    destruct (Nat.ltb 0 (N - length es)) eqn:E1, (String.eqb_spec EmptyString key) as [<-|Ek]; simpl;
      split; intros HH; auto; try discriminate; try (destruct HH as [HH|[HH1 HH2]]; auto; try congruence; lia);
      try (right; split; auto; lia).
Qed.
