(** The reader accepts exactly the valid messages. *)
From Coq Require Import ZifyBool ZifyNat.
From Verif Require Import Read Spec BytesFacts ProgFacts.

(** ** Induction on values *)

Fixpoint val_ind' (P : val -> Prop)
  (HZ : forall z, P (VZ z))
  (HSeq : forall l, Forall P l -> P (VSeq l))
  (HRec : forall l, Forall P l -> P (VRec l))
  (HNone : P VNone)
  (HSome : forall v, P v -> P (VSome v))
  (HAlt : forall i v, P v -> P (VAlt i v))
  (HF : forall w z, P (VF w z)) (v : val) : P v :=
  let go := val_ind' P HZ HSeq HRec HNone HSome HAlt HF in
  let fix all (l : list val) : Forall P l :=
    match l with
    | [] => Forall_nil P
    | x :: l' => Forall_cons x (go x) (all l')
    end in
  match v with
  | VZ z => HZ z
  | VSeq l => HSeq l (all l)
  | VRec l => HRec l (all l)
  | VNone => HNone
  | VSome x => HSome x (go x)
  | VAlt i x => HAlt i x (go x)
  | VF w z => HF w z
  end.

(** ** Comparisons of floating-point numbers *)

Lemma feqb_iff a b : feqb a b = true <-> fequal a b.
Proof.
  unfold fequal. destruct a, b; simpl; try (split; [discriminate|intros [H _]; congruence]).
  - split; [discriminate|]. intros [_ H]. congruence.
  - destruct neg, neg0; simpl; split; try discriminate; try (intros [H _]; congruence);
      intros _; split; congruence.
  - rewrite Z.eqb_eq. split; [intros ->; split; congruence|intros [H _]; congruence].
Qed.

Lemma fltb_iff a b : fltb a b = true <-> fless a b.
Proof.
  destruct a as [|[]|x], b as [|[]|y]; simpl;
    try (split; [discriminate|intros H; inversion H; fail]);
    try (split; [intros _; constructor|reflexivity]).
  rewrite Z.ltb_lt. split; [apply fl_fin|intros H; inversion H; auto].
Qed.

Lemma do_fcmp_iff o a b : do_fcmp o a b = true <-> fcmp_holds o a b.
Proof.
  destruct o; simpl; rewrite ?orb_true_iff, ?negb_true_iff, <- ?feqb_iff, <- ?fltb_iff; try tauto.
  destruct (feqb a b); intuition congruence.
Qed.

Lemma cxx_eqb_iff a : forall b, cxx_eqb a b = true <-> equal_values a b.
Proof.
  induction a using val_ind'; intros b; destruct b; simpl;
    try (split; [discriminate|intros H1; inversion H1; fail]);
    try (split; [discriminate|intros H2; inversion H2; fail]).
  - rewrite Z.eqb_eq. split; [intros ->; constructor|intros H; inversion H; auto].
  - transitivity (Forall2 equal_values l l0).
    + revert l0. induction H as [|x l Hx H IH]; intros [|y m];
        try (split; [discriminate|intros H1; inversion H1; fail]).
      * split; auto.
      * rewrite andb_true_iff, Hx, IH. split; [intros []; auto|].
        intros H1; inversion H1; auto.
    + split; [constructor; auto|intros H1; inversion H1; auto].
  - rewrite andb_true_iff, Nat.eqb_eq, feqb_iff. split.
    + intros [-> H]. constructor; auto.
    + intros H; inversion H; auto.
Qed.

(** ** Constraints *)

Lemma cstr_iff a s : cstr a = Some s <-> c_string a s.
Proof.
  unfold c_string. revert s. induction a as [|b a IH]; intros s; simpl.
  - split; [discriminate|]. intros [_ [rest H]]. destruct s; discriminate.
  - destruct (Z.eqb_spec b 0) as [->|Hb].
    + split.
      * intros H; inversion H; subst. split; auto. exists a; auto.
      * intros [H1 [rest H]]. destruct s; auto. inversion H; subst. simpl in H1. tauto.
    + destruct (cstr a) as [t|].
      * split.
        -- intros H; inversion H; subst. destruct (proj1 (IH t) eq_refl) as [H1 [rest ->]].
           split; [simpl; intros [|]; auto|]. exists rest; auto.
        -- intros [H1 [rest H]]. destruct s as [|x s]; inversion H; subst; [lia|].
           f_equal. f_equal.
           assert (Some t = Some s) by (apply IH; split; [simpl in H1; tauto|eauto]).
           congruence.
      * split; [discriminate|]. intros [H1 [rest H]]. exfalso.
        destruct s as [|x s]; inversion H; subst; [lia|].
        assert (None = Some s) by (apply IH; split; [simpl in H1; tauto|eauto]).
        discriminate.
Qed.

Lemma c_string_fun a s t : c_string a s -> c_string a t -> s = t.
Proof. rewrite <- !cstr_iff. congruence. Qed.

Lemma zlist_eqb_eq l m : zlist_eqb l m = true <-> l = m.
Proof.
  revert m. induction l; intros [|b m]; simpl; try (split; intros; discriminate); try tauto.
  rewrite andb_true_iff, Z.eqb_eq, IHl. split; [intros [-> ->]; auto|].
  intros H; inversion H; auto.
Qed.

Lemma chars_of_iff l a : chars_of l = Some a <-> l = map VZ a.
Proof.
  revert a. induction l as [|x l IH]; intros a; simpl.
  - split; [intros H; inversion H; auto|]. destruct a; [auto|discriminate].
  - destruct x; try (split; [discriminate|destruct a; discriminate]).
    destruct (chars_of l) as [s|].
    + split.
      * intros H; inversion H; subst. simpl. f_equal. apply IH; auto.
      * destruct a as [|y a]; [discriminate|]. simpl. intros H; inversion H; subst.
        f_equal. f_equal. assert (Some s = Some a) by (apply IH; auto). congruence.
    + split; [discriminate|]. destruct a as [|y a]; [discriminate|]. simpl.
      intros H; inversion H; subst. assert (None = Some a) by (apply IH; auto). discriminate.
Qed.

Lemma fixed_string_eq_true a b :
  fixed_string_eq a b = CTrue <-> exists x, c_string a x /\ c_string b x.
Proof.
  unfold fixed_string_eq. split.
  - destruct (cstr a) as [x|] eqn:Ea; [|discriminate].
    destruct (cstr b) as [y|] eqn:Eb; [|discriminate].
    destruct (zlist_eqb x y) eqn:Ez; [|discriminate]. intros _.
    apply zlist_eqb_eq in Ez. subst. exists y. rewrite <- !cstr_iff. auto.
  - intros [x [H1 H2]]. apply cstr_iff in H1, H2. rewrite H1, H2.
    assert (zlist_eqb x x = true) as -> by (apply zlist_eqb_eq; auto). reflexivity.
Qed.

Lemma fixed_string_eq_false a b :
  fixed_string_eq a b = CFalse <-> exists x y, c_string a x /\ c_string b y /\ x <> y.
Proof.
  unfold fixed_string_eq. split.
  - destruct (cstr a) as [x|] eqn:Ea; [|discriminate].
    destruct (cstr b) as [y|] eqn:Eb; [|discriminate].
    destruct (zlist_eqb x y) eqn:Ez; [discriminate|]. intros _.
    exists x, y. rewrite <- !cstr_iff. repeat split; auto.
    intros ->. rewrite (proj2 (zlist_eqb_eq y y) eq_refl) in Ez. discriminate.
  - intros (x & y & H1 & H2 & H3). apply cstr_iff in H1, H2. rewrite H1, H2.
    destruct (zlist_eqb x y) eqn:Ez; auto. apply zlist_eqb_eq in Ez. contradiction.
Qed.

Lemma str_any_true a lits : str_any a lits = CTrue <->
  exists x pre lit post, c_string a x /\ lits = pre ++ lit :: post /\ c_string lit x /\
    Forall (fun m => exists y, c_string m y /\ y <> x) pre.
Proof.
  induction lits as [|b lits IH]; simpl.
  - split; [discriminate|]. intros (x & pre & lit & post & _ & H & _). destruct pre; discriminate.
  - destruct (fixed_string_eq a b) eqn:E.
    + split; auto. intros _. apply fixed_string_eq_true in E. destruct E as [x [H1 H2]].
      exists x, [], b, lits. auto.
    + rewrite IH. apply fixed_string_eq_false in E. destruct E as (x & y & H1 & H2 & H3).
      split.
      * intros (x' & pre & lit & post & G1 & G2 & G3 & G4).
        assert (x' = x) by exact (c_string_fun _ _ _ G1 H1). subst x'.
        exists x, (b :: pre), lit, post. subst.
        split; [auto|split; [auto|split; [auto|]]].
        constructor; auto. exists y; auto.
      * intros (x' & pre & lit & post & G1 & G2 & G3 & G4).
        assert (x' = x) by exact (c_string_fun _ _ _ G1 H1). subst x'.
        destruct pre as [|p pre]; inversion G2; subst.
        -- exfalso. apply H3. exact (c_string_fun _ _ _ G3 H2).
        -- inversion G4; subst. exists x, pre, lit, post. auto.
    + split; [discriminate|]. intros (x & pre & lit & post & G1 & G2 & G3 & G4). exfalso.
      destruct pre as [|p pre]; inversion G2; subst.
      * assert (fixed_string_eq a lit = CTrue) by (apply fixed_string_eq_true; eauto). congruence.
      * inversion G4 as [|? ? [y [Y1 Y2]] G5]; subst.
        assert (fixed_string_eq a p = CFalse) by (apply fixed_string_eq_false; eauto 6). congruence.
    + split; [discriminate|]. unfold fixed_string_eq in E.
      destruct (cstr a), (cstr b); try discriminate. destruct (zlist_eqb l l0); discriminate.
Qed.

Lemma cres_of_bool_true b : cres_of_bool b = CTrue <-> b = true.
Proof. destruct b; simpl; split; congruence. Qed.

Lemma do_cmp_iff o a b : do_cmp o a b = true <-> cmp_holds o a b.
Proof. destruct o; simpl; lia. Qed.

(** ** Literals of another kind than the field *)

Lemma pow_1074 : 0 < 2 ^ 1074.
Proof. apply Z.pow_pos_nonneg; lia. Qed.

Lemma whole_part_iff n z : whole_part n z <-> z = Z.quot n (2 ^ 1074).
Proof.
  unfold whole_part. pose proof pow_1074 as P. set (d := 2 ^ 1074) in *. clearbody d.
  assert (Q : forall a, 0 <= a -> a = d * Z.quot a d + Z.rem a d /\ 0 <= Z.rem a d < d /\ 0 <= Z.quot a d).
  { intros a Ha. split; [apply Z.quot_rem'|]. split; [apply Z.rem_bound_pos; lia|apply Z.quot_pos; lia]. }
  assert (U : forall a z, 0 <= a -> 0 <= z -> (z * d <= a < (z + 1) * d <-> z = Z.quot a d)).
  { intros a y Ha Hy. destruct (Q a Ha) as (E & H1 & H2). split; [intros H; nia|intros ->; nia]. }
  destruct (Z.le_ge_cases 0 n) as [Hn|Hn].
  - rewrite (Z.abs_eq n) by lia. split.
    + intros (H1 & H2). destruct (Z.le_ge_cases 0 z); [rewrite Z.abs_eq in H2 by lia; apply U; auto|].
      rewrite Z.abs_neq in H2 by lia. assert (n = 0 \/ z = 0) as [->| ->] by nia.
      * rewrite Z.quot_0_l by lia. nia.
      * apply U; auto; lia.
    + intros ->. destruct (Q n Hn) as (_ & _ & H). rewrite Z.abs_eq by lia. split; [nia|]. apply U; auto.
  - rewrite (Z.abs_neq n) by lia. rewrite <- (Z.opp_involutive n) at 4. rewrite Z.quot_opp_l by lia. split.
    + intros (H1 & H2). destruct (Z.le_ge_cases z 0); [rewrite Z.abs_neq in H2 by lia; apply U in H2; lia|].
      rewrite Z.abs_eq in H2 by lia. assert (n = 0 \/ z = 0) as [->| ->] by nia.
      * change (- 0) with 0. rewrite Z.quot_0_l by lia. nia.
      * apply U in H2; lia.
    + intros ->. destruct (Q (- n) ltac:(lia)) as (_ & _ & H). rewrite Z.abs_neq by lia. split; [nia|].
      rewrite Z.opp_involutive. apply U; lia.
Qed.

Lemma as_int_iff s v z : as_int s v = Some (Some z) <-> int_of s v z.
Proof.
  unfold as_int. destruct v as [y| | | | | |u y]; try (split; [discriminate|intros H; inversion H; fail]).
  - split; intros H; inversion H; subst; constructor.
  - unfold ftoi. destruct s as [w sg|].
    + destruct (fdec u y) as [|b|n] eqn:E; try (split; [discriminate|intros H; inversion H; subst; congruence]).
      cbv zeta. destruct (sc_in (SInt w sg) (Z.quot n (2 ^ 1074))) eqn:I; split.
      * intros H. inversion H. subst z. eapply io_float; eauto; [discriminate|]. apply whole_part_iff. auto.
      * intros H. inversion H as [|? ? n' ? _ E' W _| |]; subst; try discriminate. rewrite E in E'. inversion E'. subst n'.
        apply whole_part_iff in W. subst z. auto.
      * discriminate.
      * intros H. inversion H as [|? ? n' ? _ E' W I'| |]; subst; try discriminate. rewrite E in E'. inversion E'. subst n'.
        apply whole_part_iff in W. subst z. congruence.
    + split.
      * intros H. destruct (fdec u y) as [|b|[|p|p]] eqn:E; inversion H; subst;
          try (apply io_true; [auto|rewrite E; discriminate]); apply io_false; auto.
      * intros H. inversion H as [|? ? ? ? N|? ? _ E|? ? _ E]; subst; [congruence|rewrite E; auto|].
        destruct (fdec u y) as [|b|[|p|p]]; auto; congruence.
Qed.

Lemma as_float_iff w v x : as_float w v = Some x <-> float_of w v x.
Proof.
  unfold as_float. destruct v as [y| | | | | |u y]; try (split; [discriminate|intros H; inversion H; fail]).
  - split; intros H; inversion H; subst; constructor.
  - destruct (Nat.leb_spec u w); split; intros H'; inversion H'; subst; auto; try lia; constructor; auto.
Qed.

Lemma check_holds k v : check k v = CTrue <-> holds k v.
Proof.
  destruct k; simpl.
  - tauto.
  - transitivity (exists z, as_int s v = Some (Some z) /\ do_cmp o z lit = true).
    + destruct (as_int s v) as [[z|]|]; [|split; [discriminate|intros (? & ? & _); discriminate]..].
      rewrite cres_of_bool_true. split; [eauto|]. intros (z' & H & H'). inversion H; subst; auto.
    + split; intros (z & H & H'); exists z; [rewrite <- as_int_iff, <- do_cmp_iff|rewrite as_int_iff, do_cmp_iff]; auto.
  - transitivity (exists z, as_int s v = Some (Some z) /\ In z lits).
    + destruct (as_int s v) as [[z|]|]; [|split; [discriminate|intros (? & ? & _); discriminate]..].
      rewrite cres_of_bool_true, existsb_exists. split.
      * intros (x & H1 & H2). apply Z.eqb_eq in H2. subst. eauto.
      * intros (z' & H & H'). inversion H; subst. exists z'. rewrite Z.eqb_refl; auto.
    + split; intros (z & H & H'); exists z; [rewrite <- as_int_iff|rewrite as_int_iff]; auto.
  - destruct v; try (split; [discriminate|intros [[? ?] _]; discriminate]).
    rewrite cres_of_bool_true. destruct neg.
    + rewrite <- cxx_eqb_iff. cbn [xorb]. destruct (cxx_eqb (VSeq l) lit).
      * split; [discriminate|]. intros [_ H]; congruence.
      * split; auto. intros _. split; eauto.
    + rewrite <- cxx_eqb_iff. cbn [xorb]. destruct (cxx_eqb (VSeq l) lit).
      * split; eauto.
      * split; [discriminate|]. intros [_ H]. auto.
  - destruct v; try (split; [discriminate|intros (? & ? & ? & ? & _); discriminate]).
    destruct (chars_of l) as [a|] eqn:Ec.
    + apply chars_of_iff in Ec. subst l. destruct neg; simpl.
      * transitivity (fixed_string_eq a lit = CFalse).
        { destruct (fixed_string_eq a lit); simpl; split; congruence. }
        rewrite fixed_string_eq_false. split.
        -- intros (x & y & H1 & H2 & H3). exists a, x, y. auto.
        -- intros (a' & x & y & H0 & H1 & H2 & H3).
           injection H0 as H0.
           assert (chars_of (map VZ a) = Some a') by (apply chars_of_iff; auto).
           assert (chars_of (map VZ a) = Some a) by (apply chars_of_iff; auto).
           assert (a' = a) by congruence. subst. eauto.
      * rewrite fixed_string_eq_true. split.
        -- intros (x & H1 & H2). exists a, x, x. auto.
        -- intros (a' & x & y & H0 & H1 & H2 & H3).
           injection H0 as H0.
           assert (chars_of (map VZ a) = Some a') by (apply chars_of_iff; auto).
           assert (chars_of (map VZ a) = Some a) by (apply chars_of_iff; auto).
           assert (a' = a) by congruence. subst. eauto.
    + split; [discriminate|]. intros (a & x & y & H & _). injection H as H.
      apply chars_of_iff in H. congruence.
  - destruct v; try (split; [discriminate|intros (? & ? & ? & ? & ? & ? & _); discriminate]).
    destruct (chars_of l) as [a|] eqn:Ec.
    + apply chars_of_iff in Ec. subst l. rewrite str_any_true. split.
      * intros (x & pre & lit & post & H). exists a, x, pre, lit, post. tauto.
      * intros (a' & x & pre & lit & post & H0 & H).
        injection H0 as H0.
        assert (chars_of (map VZ a) = Some a') by (apply chars_of_iff; auto).
        assert (chars_of (map VZ a) = Some a) by (apply chars_of_iff; auto).
        assert (a' = a) by congruence. subst. eauto 6.
    + split; [discriminate|]. intros (a & x & pre & lit & post & H & _). injection H as H.
      apply chars_of_iff in H. congruence.
  - transitivity (exists x, as_float w v = Some x /\ do_fcmp o x (fdec w lit) = true).
    + destruct (as_float w v) as [x|]; [|split; [discriminate|intros (? & ? & _); discriminate]].
      rewrite cres_of_bool_true. split; [eauto|]. intros (z' & H & H'). inversion H; subst; auto.
    + split; intros (z & H & H'); exists z; [rewrite <- as_float_iff, <- do_fcmp_iff|rewrite as_float_iff, do_fcmp_iff]; auto.
  - transitivity (exists x, as_float w v = Some x /\ Exists (fun l => fequal x (fdec w l)) lits).
    + destruct (as_float w v) as [x|]; [|split; [discriminate|intros (? & ? & _); discriminate]].
      rewrite cres_of_bool_true, existsb_exists. split.
      * intros (l & H1 & H2). apply feqb_iff in H2. exists x. split; auto. apply Exists_exists. eauto.
      * intros (z' & H & H'). inversion H; subst. apply Exists_exists in H' as (l & H1 & H2). exists l.
        split; auto. apply feqb_iff. auto.
    + split; intros (z & H & H'); exists z; [rewrite <- as_float_iff|rewrite as_float_iff]; auto.
  - apply cres_of_bool_true.
Qed.

(** ** Environments *)

Definition agree (seen : list ident) (e E : env) : Prop :=
  forall id, memb id seen = true -> lookup e id = lookup E id.

Lemma memb_In id l : memb id l = true <-> In id l.
Proof.
  unfold memb. rewrite existsb_exists. split.
  - intros (x & H1 & H2). apply String.eqb_eq in H2. subst; auto.
  - intros H. exists id. split; auto. apply String.eqb_refl.
Qed.

Lemma agree_lookups seen e E ids : agree seen e E -> all_in ids seen = true ->
  lookups e ids = lookups E ids.
Proof.
  intros Ha. induction ids; simpl; auto. rewrite andb_true_iff. intros [H1 H2].
  rewrite (Ha _ H1), IHids; auto.
Qed.

Lemma lookup_update_same e id v : (exists w, lookup e id = Some w) ->
  lookup (update e id v) id = Some v.
Proof.
  induction e as [|[i w] e IH]; simpl; intros [w' H]; try discriminate.
  destruct (String.eqb i id) eqn:Ei; simpl; rewrite Ei; auto. apply IH. eauto.
Qed.

Lemma lookup_update_other e id id' v : id <> id' ->
  lookup (update e id v) id' = lookup e id'.
Proof.
  intros Hne. induction e as [|[i w] e IH]; simpl; auto.
  destruct (String.eqb_spec i id); simpl.
  - subst. destruct (String.eqb_spec id id'); auto. contradiction.
  - rewrite IH. auto.
Qed.

Lemma agree_update seen e E id v : agree seen e E ->
  (exists w, lookup e id = Some w) -> lookup E id = Some v ->
  agree (id :: seen) (update e id v) E.
Proof.
  intros Ha Hd HE id' Hin. destruct (String.eqb_spec id id').
  - subst. rewrite lookup_update_same, HE; auto.
  - rewrite lookup_update_other by auto. apply Ha. unfold memb in *. simpl in Hin.
    destruct (String.eqb_spec id' id); auto; congruence.
Qed.

(** All fields of a list are bound in [E] to the given values. *)
Fixpoint binds (E : env) (fs : fields) (vs : list val) : Prop :=
  match fs, vs with
  | FNil, [] => True
  | FCons id _ _ fs', v :: vs' => lookup E id = Some v /\ binds E fs' vs'
  | _, _ => False
  end.

Definition dom (fs : fields) (e : env) : Prop :=
  forall id, In id (f_ids fs) -> exists w, lookup e id = Some w.

Lemma dom_update fs e id v : dom fs e -> dom fs (update e id v).
Proof.
  intros H id' Hin. destruct (String.eqb_spec id id').
  - subst. exists v. apply lookup_update_same. auto.
  - rewrite lookup_update_other by auto. auto.
Qed.

Lemma wf_fields_ids seen fs : wf_fields seen fs = true ->
  NoDup (f_ids fs) /\ forall id, In id (f_ids fs) -> ~ In id seen.
Proof.
  revert seen. induction fs; intros seen; cbn [wf_fields f_ids]; intros H.
  - split; [constructor|]. intros ? [].
  - apply andb_true_iff in H. destruct H as [H H3].
    apply andb_true_iff in H. destruct H as [H1 H2].
    apply IHfs in H3. destruct H3 as [H3 H4].
    assert (Hid : ~ In id seen).
    { intros Hin. apply memb_In in Hin. rewrite Hin in H1. discriminate. }
    split.
    + constructor; auto. intros Hin. apply H4 in Hin. apply Hin. left; auto.
    + intros id' [->|Hin]; auto. apply H4 in Hin. simpl in Hin. tauto.
Qed.

Lemma lookup_notin fs vs id : ~ In id (f_ids fs) -> lookup (mk_env fs vs) id = None.
Proof.
  revert vs. induction fs; intros [|v vs]; simpl; auto. intros H.
  destruct (String.eqb_spec id0 id); [tauto|]. apply IHfs. tauto.
Qed.

Lemma binds_weaken id v e fs vs : ~ In id (f_ids fs) ->
  binds e fs vs -> binds ((id, v) :: e) fs vs.
Proof.
  revert vs. induction fs; intros [|w vs]; simpl; auto. intros H [H1 H2].
  split; [|apply IHfs; tauto].
  destruct (String.eqb_spec id id0); [exfalso; apply H; auto|auto].
Qed.

Lemma binds_mk_env fs vs : NoDup (f_ids fs) -> length vs = f_len fs ->
  binds (mk_env fs vs) fs vs.
Proof.
  revert vs. induction fs; intros [|v vs] Hn Hl; simpl in *; try discriminate; auto.
  inversion Hn; subst. split.
  - rewrite String.eqb_refl. auto.
  - apply binds_weaken; auto.
Qed.

Lemma dom_mk_env fs vs : length vs = f_len fs -> dom fs (mk_env fs vs).
Proof.
  revert vs. induction fs; intros [|v vs] Hl id' Hin; simpl in *; try discriminate; try tauto.
  destruct (String.eqb_spec id id'); eauto.
  destruct Hin as [->|Hin]; [congruence|]. apply IHfs; auto.
Qed.

Lemma default_fields_length fs : length (default_fields fs) = f_len fs.
Proof. induction fs; simpl; auto. Qed.

Lemma valid_fields_length c E fs vs : valid_fields c E fs vs -> length vs = f_len fs.
Proof. revert vs. induction fs; intros [|v vs]; simpl; try tauto. intros (_ & _ & H). auto. Qed.

Lemma read_fields_length c fs : forall e bs vs rest,
  rmem (read_fields c e fs) bs = (Ok vs, rest) -> length vs = f_len fs.
Proof.
  induction fs; intros e bs vs rest; cbn [read_fields].
  - simpl. intros H; inversion H; auto.
  - rewrite rmem_bind_ok. intros (v & mid & _ & H).
    rewrite rmem_bind_ok in H. destruct H as (vs' & mid' & H1 & H2).
    simpl in H2. inversion H2; subst. simpl. f_equal. eauto.
Qed.

(** ** Lengths and type deduction *)

Lemma to_size_range c z : 0 <= to_size c z < pow256 (c_szw c).
Proof. unfold to_size. apply Z.mod_pos_bound, pow256_pos. Qed.

Lemma deduce_len_sound c e l len : deduce_len c e l = Some len ->
  0 <= len /\ len_is c e l (Z.to_nat len).
Proof.
  destruct l; simpl.
  - destruct (lookup e id) as [[z| | | | | |]|]; try discriminate. intros H; inversion H; subst.
    pose proof (to_size_range c z). split; [lia|]. exists z. split; auto.
    rewrite Z2Nat.id by lia. reflexivity.
  - destruct (lookups e ids) as [vs|]; try discriminate. intros H; inversion H; subst.
    pose proof (to_size_range c (f vs)). split; [lia|]. exists vs. split; auto.
    rewrite Z2Nat.id by lia. reflexivity.
Qed.

Lemma deduce_len_complete c e l n : len_is c e l n -> deduce_len c e l = Some (Z.of_nat n).
Proof.
  destruct l; simpl.
  - intros (z & -> & H). unfold to_size, pow256. rewrite H. auto.
  - intros (vs & -> & H). unfold to_size, pow256. rewrite H. auto.
Qed.

Lemma deduce_len_agree c seen e E l : agree seen e E -> len_wf seen l = true ->
  deduce_len c e l = deduce_len c E l.
Proof.
  intros Ha. destruct l; simpl; intros H.
  - rewrite (Ha _ H). auto.
  - rewrite (agree_lookups _ _ _ _ Ha H). auto.
Qed.

Lemma first_true_iff l i : first_true l = Some i <->
  nth_error l i = Some true /\ forall j, (j < i)%nat -> nth_error l j = Some false.
Proof.
  revert i. induction l as [|b l IH]; intros i; simpl.
  - split; [discriminate|]. destruct i; intros [H _]; discriminate.
  - destruct b.
    + split.
      * intros H; inversion H; subst. split; auto. intros; lia.
      * intros [H1 H2]. destruct i; auto. specialize (H2 O). simpl in H2.
        discriminate H2. lia.
    + destruct i; simpl.
      * split; [|intros [H _]; discriminate]. destruct (first_true l); discriminate.
      * transitivity (first_true l = Some i).
        { destruct (first_true l); simpl; split; congruence. }
        rewrite IH. split; intros [H1 H2]; split; auto.
        -- intros [|j] Hj; simpl; auto. apply H2. lia.
        -- intros j Hj. apply (H2 (S j)). lia.
Qed.

Lemma eval_switch_iff s z cases i :
  eval_switch s z cases = Some i <-> first_case s z cases i.
Proof.
  unfold eval_switch, first_case. rewrite first_true_iff.
  assert (Hn : forall j, nth_error (map (fun cv => cxx_eq s z (fst cv) (snd cv)) cases) j =
           option_map (fun cv => cxx_eq s z (fst cv) (snd cv)) (nth_error cases j)).
  { intros j. revert j. induction cases; intros [|j]; simpl; auto. }
  rewrite Hn. split; intros [H1 H2]; split.
  - destruct (nth_error cases i); try discriminate. simpl in H1. inversion H1. eauto.
  - intros j sv Hj Hs. specialize (H2 j Hj). rewrite Hn, Hs in H2. simpl in H2. congruence.
  - destruct H1 as (sv & -> & H1). simpl. congruence.
  - intros j Hj. rewrite Hn. destruct (nth_error cases j) eqn:Ej; simpl.
    + f_equal. eauto.
    + exfalso. apply nth_error_None in Ej. destruct H1 as (sv & H1 & _).
      assert (i < length cases)%nat by (apply nth_error_Some; congruence). lia.
Qed.

Lemma eval_ladder_iff e brs i :
  eval_ladder e brs = Some (Some i) <-> selects e (GLadder brs) i.
Proof.
  simpl. revert i. induction brs as [|[p ids] brs IH]; intros i; simpl.
  - split; [discriminate|]. intros [(p & ids & vs & H & _) _]. destruct i; discriminate.
  - destruct (lookups e ids) as [vs|] eqn:El.
    + destruct (p vs) eqn:Ep.
      * split.
        -- intros H; inversion H; subst. split; [|intros; lia]. exists p, ids, vs. auto.
        -- intros [H1 H2]. destruct i; auto. exfalso.
           destruct (H2 O p ids) as (vs' & G1 & G2); simpl; auto; [lia|]. congruence.
      * destruct i; simpl.
        -- split.
           ++ destruct (eval_ladder e brs) as [[|]|]; discriminate.
           ++ intros [(p' & ids' & vs' & H & H1 & H2) _]. inversion H; subst. congruence.
        -- transitivity (eval_ladder e brs = Some (Some i)).
           { destruct (eval_ladder e brs) as [[|]|]; simpl; split; congruence. }
           rewrite IH. split; intros [H1 H2]; split; auto.
           ++ intros [|j] p' ids' Hj Hs; simpl in Hs.
              ** inversion Hs; subst. eauto.
              ** eapply H2; eauto. lia.
           ++ intros j p' ids' Hj Hs. apply (H2 (S j) p' ids'); auto. lia.
    + split; [discriminate|]. intros [H1 H2]. exfalso. destruct i; simpl in H1.
      * destruct H1 as (p' & ids' & vs' & H & H1 & _). inversion H; subst. congruence.
      * destruct (H2 O p ids) as (vs' & G1 & G2); simpl; auto; [lia|]. congruence.
Qed.

Lemma deduce_type_iff e g i : deduce_type e g = Some (Some i) <-> selects e g i.
Proof.
  destruct g; [| |apply eval_ladder_iff]; simpl.
  - destruct (lookup e id) as [[z| | | | | |]|];
      try (split; [discriminate|intros (? & ? & _); discriminate]).
    split.
    + intros H; inversion H. exists z. split; auto. apply eval_switch_iff; auto.
    + intros (z' & H & H'). inversion H; subst. f_equal. apply eval_switch_iff; auto.
  - destruct (lookups e ids) as [vs|];
      try (split; [discriminate|intros (? & ? & _); discriminate]).
    split.
    + intros H; inversion H. exists vs. split; auto. apply eval_switch_iff; auto.
    + intros (z' & H & H'). inversion H; subst. f_equal. apply eval_switch_iff; auto.
Qed.

Lemma eval_ladder_agree seen e E brs : agree seen e E ->
  forallb (fun b => all_in (snd b) seen) brs = true ->
  eval_ladder e brs = eval_ladder E brs.
Proof.
  intros Ha. induction brs as [|[p ids] brs IH]; simpl; auto. rewrite andb_true_iff.
  intros [H1 H2]. rewrite (agree_lookups _ _ _ _ Ha H1), IH; auto.
Qed.

Lemma deduce_type_agree seen e E g : agree seen e E -> guide_wf seen g = true ->
  deduce_type e g = deduce_type E g.
Proof.
  intros Ha. destruct g; simpl; intros H.
  - rewrite (Ha _ H). auto.
  - rewrite (agree_lookups _ _ _ _ Ha H). auto.
  - eapply eval_ladder_agree; eauto.
Qed.

(** ** Leaves *)

Lemma csize_pos t : ct_wf t = true -> (0 < csize t)%nat.
Proof.
  induction t; simpl; intros H; try lia; [|apply ffmt_pos; auto].
  apply andb_true_iff in H. destruct H as [H1 H2]. specialize (IHt H2). nia.
Qed.

Lemma parses_fixed c t n : ct_wf t = true -> (n <= csize t)%nat ->
  parses (read_fixed c t n)
         (fun v => ct_ok t v /\ representable (c_wire c) t n v)
         (fun v => firstn n (enc_ct (c_wire c) t v)).
Proof.
  intros Hwf Hn bs v rest Hb. unfold read_fixed.
  destruct (Nat.ltb_spec (csize t) n); [lia|].
  rewrite rmem_read_ok by lia. split.
  - intros (b & r & -> & Hl & H1). apply Forall_app in Hb. destruct Hb as [Hb _].
    destruct (load c t (overlay (csize t) b)) as [v'|] eqn:El; simpl in H1; inversion H1; subst.
    apply load_overlay_iff with (n := n) in El; auto; [|lia]. destruct El as [E1 E2].
    rewrite E2 at 1. auto.
  - intros [H1 H2]. subst bs.
    assert (Hlen : length (firstn n (enc_ct (c_wire c) t v)) = n).
    { rewrite firstn_length, enc_ct_length; [lia|tauto]. }
    exists (firstn n (enc_ct (c_wire c) t v)), rest. repeat split; auto.
    apply Forall_app in Hb. destruct Hb as [Hb _].
    assert (El : load c t (overlay (csize t) (firstn n (enc_ct (c_wire c) t v))) = Some v).
    { apply (load_overlay_iff c t n); auto. }
    rewrite El. auto.
Qed.

Lemma parses_raw c esz len : 0 <= esz -> 0 <= len ->
  len * esz < pow256 (c_szw c) ->
  parses (read_raw c esz len) (fun mem => Z.of_nat (length mem) = len * esz) (fun mem => mem).
Proof.
  intros He Hl Hfit bs mem rest Hb. unfold read_raw. destruct (c_cx c).
  - assert (P1 : @parses reason _ (RRead esz BufferExhaustion (fun bs => RRet bs))
                   (fun b => Z.of_nat (length b) = esz) (fun b => b)).
    { intros bs' a rest' Hb'. rewrite rmem_read_ok by lia. split.
      - intros (b & r & -> & H1 & H2). simpl in H2. inversion H2; subst. auto.
      - intros [H1 ->]. exists a, rest'. auto. }
    rewrite rmem_bind_ok. split.
    + intros (chs & mid & H1 & H2). simpl in H2. inversion H2; subst; clear H2.
      apply (parses_rrep _ _ _ P1) in H1; auto. destruct H1 as [[H1 H2] H3].
      split.
      * rewrite Z.mul_comm. replace len with (Z.of_nat (length chs)) by lia.
        clear -H2. induction H2; simpl; [lia|]. rewrite app_length. nia.
      * rewrite flat_map_concat_map, map_id in H3. auto.
    + intros [H1 H2].
      exists (chunks (Z.to_nat esz) (Z.to_nat len) mem), rest.
      assert (Hml : length mem = (Z.to_nat len * Z.to_nat esz)%nat) by nia.
      split.
      * apply (parses_rrep _ _ _ P1); auto. split.
        -- split; [apply chunks_length|].
           subst bs. apply Forall_app in Hb. destruct Hb as [Hb _].
           eapply Forall_impl; [|apply (chunks_Forall _ _ _ Hml Hb)].
           intros ch [Hch _]. lia.
        -- rewrite flat_map_concat_map, map_id, concat_chunks; auto.
      * rewrite concat_chunks; auto.
  - assert (Hts : to_size c (len * esz) = len * esz) by (apply Z.mod_small; nia).
    rewrite Hts, rmem_read_ok by nia. split.
    + intros (b & r & -> & H1 & H2). simpl in H2. inversion H2; subst. auto.
    + intros [H1 ->]. exists mem, rest. auto.
Qed.

Lemma elems_iff c elt n mem xs : ct_wf elt = true -> Forall byte_ok mem ->
  length mem = (n * csize elt)%nat ->
  sequence (map (load c elt) (chunks (csize elt) n mem)) = Some xs <->
  length xs = n /\ Forall (ct_ok elt) xs /\ mem = flat_map (enc_ct (c_wire c) elt) xs.
Proof.
  intros Hwf Hb Hl. rewrite sequence_map_some. split.
  - intros E. pose proof (chunks_Forall _ _ _ Hl Hb) as Hc.
    split; [apply Forall2_len in E; rewrite chunks_length in E; auto|].
    rewrite <- (concat_chunks _ _ _ Hl). clear Hl Hb.
    revert Hc. induction E as [|ch x chs xs Hx E IH]; intros Hc; simpl; auto.
    inversion Hc as [|? ? [Hc1 Hc2] Hc']; subst. destruct (IH Hc') as [I1 I2].
    apply load_iff in Hx; auto. destruct Hx as [Hx1 Hx2]. split; [auto|]. congruence.
  - intros (H1 & H2 & ->). rewrite flat_map_concat_map, chunks_concat.
    + clear -Hwf H2. induction H2; simpl; constructor; auto.
      apply load_iff; auto using enc_ct_bytes, enc_ct_length.
    + rewrite map_length; auto.
    + apply Forall_map. eapply Forall_impl; [|exact H2]. intros; apply enc_ct_length; auto.
Qed.

Lemma len_allowed_iff c b esz n : 0 < esz ->
  len_allowed (ceiling c b) esz (Z.of_nat n) = true <-> within c b esz n.
Proof.
  intros He. unfold len_allowed, within, ceiling.
  set (m := to_size c match b with Some m => m | None => c_dmax c end).
  change (match b with Some m => m | None => c_dmax c end mod 256 ^ Z.of_nat (c_szw c)) with m.
  rewrite negb_true_iff, Z.ltb_ge. split; intros H.
  - pose proof (Z.mul_div_le m esz He). nia.
  - apply Z.div_le_lower_bound; lia.
Qed.

Lemma len_allowed_fits c b esz len : 0 < esz -> 0 <= len ->
  len_allowed (ceiling c b) esz len = true -> len * esz < pow256 (c_szw c).
Proof.
  intros He Hl Ha. pose proof (to_size_range c match b with Some m => m | None => c_dmax c end).
  unfold len_allowed, ceiling in Ha. rewrite negb_true_iff, Z.ltb_ge in Ha.
  set (m := to_size c match b with Some m => m | None => c_dmax c end) in *.
  pose proof (Z.mul_div_le m esz He). nia.
Qed.

Lemma flat_map_length_const {A} (f : A -> list Z) w l :
  Forall (fun x => length (f x) = w) l -> length (flat_map f l) = (length l * w)%nat.
Proof. induction 1; simpl; auto. rewrite app_length. lia. Qed.

Lemma parses_var c elt len b : ct_wf elt = true -> 0 <= len ->
  parses (read_var c elt len b)
    (fun v => exists xs, v = VSeq xs /\ Forall (ct_ok elt) xs /\
              Z.of_nat (length xs) = len /\ within c b (Z.of_nat (csize elt)) (length xs))
    (fun v => match v with VSeq xs => flat_map (enc_ct (c_wire c) elt) xs | _ => [] end).
Proof.
  intros Hwf Hlen bs v rest Hb. unfold read_var.
  pose proof (csize_pos _ Hwf) as Hpos.
  destruct (len_allowed (ceiling c b) (Z.of_nat (csize elt)) len) eqn:Ea.
  - pose proof (len_allowed_fits c b (Z.of_nat (csize elt)) len ltac:(lia) Hlen Ea) as Hfit.
    cbn [rmem]. rewrite rmem_bind_ok. split.
    + intros (mem & mid & H1 & H2).
      pose proof H1 as H1'.
      apply parses_raw in H1; auto; try lia. destruct H1 as [H1 ->].
      apply Forall_app in Hb. destruct Hb as [Hb Hb'].
      destruct (sequence _) as [xs|] eqn:Es; simpl in H2; inversion H2; subst.
      apply elems_iff in Es; auto; [|nia]. destruct Es as (E1 & E2 & E3).
      split; [|congruence].
      exists xs. repeat split; auto; [lia|].
      replace len with (Z.of_nat (length xs)) in Ea by lia.
      apply len_allowed_iff in Ea; [auto|lia].
    + intros [(xs & -> & H1 & H2 & H3) ->].
      assert (Hml : length (flat_map (enc_ct (c_wire c) elt) xs) =
                    (Z.to_nat len * csize elt)%nat).
      { rewrite flat_map_length_const with (w := csize elt); [nia|].
        eapply Forall_impl; [|exact H1]. intros; apply enc_ct_length; auto. }
      exists (flat_map (enc_ct (c_wire c) elt) xs), rest. split.
      * apply parses_raw; auto; try lia. split; auto. nia.
      * assert (Es : sequence (map (load c elt)
            (chunks (csize elt) (Z.to_nat len) (flat_map (enc_ct (c_wire c) elt) xs))) = Some xs).
        { apply elems_iff; auto.
          - apply Forall_app in Hb. tauto.
          - repeat split; auto. lia. }
        rewrite Es. auto.
  - split; [intros H; discriminate|].
    intros [(xs & -> & H1 & H2 & H3) _]. exfalso.
    subst len. apply len_allowed_iff in H3; [congruence|lia].
Qed.

(** ** The reader *)

Lemma parses_checked {p : rprog reason val} {P enc} k : parses p P enc ->
  parses (rbind p (rcheck k)) (fun v => P v /\ holds k v) enc.
Proof.
  intros Hp bs v rest Hb. rewrite rmem_bind_ok. unfold rcheck. split.
  - intros (a & mid & H1 & H2). destruct (check k a) eqn:Ek; simpl in H2; inversion H2; subst.
    apply Hp in H1; auto. apply check_holds in Ek. tauto.
  - intros [[H1 H2] H3]. exists v, rest. split; [apply Hp; auto|].
    apply check_holds in H2. rewrite H2. auto.
Qed.

Definition pt_ty (t : fty) : Prop := forall c seen e E,
  wf_ty seen t = true -> agree seen e E ->
  parses (read_ty c e t) (valid_ty c E t) (enc_ty (c_wire c) t).

Definition pt_alts (al : alts) : Prop := forall c seen e E i,
  wf_alts seen al = true -> agree seen e E ->
  parses (read_alts c e al i) (valid_alts c E al i) (enc_alts (c_wire c) al i).

Definition pt_fields (fs : fields) : Prop := forall c seen e E bs vs rest,
  wf_fields seen fs = true -> agree seen e E -> dom fs e -> binds E fs vs ->
  Forall byte_ok bs ->
  rmem (read_fields c e fs) bs = (Ok vs, rest) <->
  valid_fields c E fs vs /\ bs = enc_fields (c_wire c) fs vs ++ rest.

Lemma pt_struct fs : pt_fields fs -> forall c, wf_fields [] fs = true ->
  parses (rbind (rmaperr fst (read_fields c (mk_env fs (default_fields fs)) fs))
                (fun vs => RRet (VRec vs)))
         (fun v => exists vs, v = VRec vs /\ valid_fields c (mk_env fs vs) fs vs)
         (fun x => match x with VRec vs => enc_fields (c_wire c) fs vs | _ => [] end).
Proof.
  intros Hf c Hwf bs v rest Hb. rewrite rmem_bind_ok.
  destruct (wf_fields_ids _ _ Hwf) as [Hnd _].
  assert (Hdom : dom fs (mk_env fs (default_fields fs)))
    by (apply dom_mk_env, default_fields_length).
  assert (Hag : forall E, agree [] (mk_env fs (default_fields fs)) E)
    by (intros E id; discriminate).
  split.
  - intros (vs & mid & H1 & H2). simpl in H2. inversion H2; subst; clear H2.
    rewrite rmem_maperr_ok in H1.
    pose proof (read_fields_length _ _ _ _ _ _ H1) as Hl.
    eapply (Hf c [] _ (mk_env fs vs)) in H1; eauto using binds_mk_env.
    destruct H1. eauto.
  - intros [(vs & -> & H1) ->]. exists vs, rest. split; auto.
    rewrite rmem_maperr_ok.
    pose proof (valid_fields_length _ _ _ _ H1) as Hl.
    apply (Hf c [] _ (mk_env fs vs)); auto using binds_mk_env.
Qed.

Lemma reader_correct : (forall t, pt_ty t) /\ (forall fs, pt_fields fs) /\ (forall al, pt_alts al).
Proof.
  apply schema_mutind.
  - (* FFixed *)
    intros t n c seen e E Hwf Ha. cbn [wf_ty] in Hwf. apply andb_true_iff in Hwf.
    destruct Hwf as [H1 H2].
    apply parses_fixed; auto. destruct t; lia.
  - (* FVar *)
    intros elt l b c seen e E Hwf Ha. cbn [wf_ty] in Hwf. apply andb_true_iff in Hwf.
    destruct Hwf as [H1 H2].
    intros bs v rest Hb. cbn [read_ty valid_ty enc_ty].
    rewrite (deduce_len_agree c _ _ _ _ Ha H2).
    destruct (deduce_len c E l) as [len|] eqn:El.
    + apply deduce_len_sound in El as Els. destruct Els as [Hl Hi].
      rewrite (parses_var c elt len b H1 Hl bs v rest Hb). split.
      * intros [(xs & -> & G1 & G2 & G3) ->]. split; auto.
        exists xs. repeat split; auto. subst len. rewrite Nat2Z.id in Hi. auto.
      * intros [(xs & -> & G1 & G2 & G3) ->]. split; auto.
        exists xs. repeat split; auto. apply deduce_len_complete in G2. congruence.
    + split; [discriminate|]. intros [(xs & -> & G1 & G2 & G3) _].
      apply deduce_len_complete in G2. congruence.
  - (* FStruct *)
    intros fs IH c seen e E Hwf Ha. cbn [wf_ty] in Hwf.
    exact (pt_struct fs IH c Hwf).
  - (* FArrRec *)
    intros n fs IH c seen e E Hwf Ha. cbn [wf_ty] in Hwf.
    intros bs v rest Hb. cbn [read_ty valid_ty enc_ty]. rewrite rmem_bind_ok.
    split.
    + intros (xs & mid & H1 & H2). simpl in H2. inversion H2; subst; clear H2.
      apply (parses_rrep _ _ _ (pt_struct fs IH c Hwf)) in H1; auto.
      destruct H1 as [[H1 H2] H3]. split; eauto.
    + intros [(xs & -> & H1 & H2) H3]. exists xs, rest. split; auto.
      apply (parses_rrep _ _ _ (pt_struct fs IH c Hwf)); auto.
  - (* FVecRec *)
    intros fs IH recsz l b c seen e E Hwf Ha. cbn [wf_ty] in Hwf.
    apply andb_true_iff in Hwf. destruct Hwf as [Hwf H2].
    apply andb_true_iff in Hwf. destruct Hwf as [Hwf H3]. apply Z.ltb_lt in H3.
    intros bs v rest Hb. cbn [read_ty valid_ty enc_ty].
    rewrite (deduce_len_agree c _ _ _ _ Ha H2).
    destruct (deduce_len c E l) as [len|] eqn:El.
    + apply deduce_len_sound in El as Els. destruct Els as [Hl Hi].
      destruct (len_allowed (ceiling c b) recsz len) eqn:Eal.
      * cbn [rmem]. rewrite rmem_bind_ok. split.
        -- intros (xs & mid & G1 & G2). simpl in G2. inversion G2; subst; clear G2.
           apply (parses_rrep _ _ _ (pt_struct fs IH c Hwf)) in G1; auto.
           destruct G1 as [[G1 G2] G3]. split; auto. exists xs. repeat split; auto.
           ++ rewrite G1. auto.
           ++ replace len with (Z.of_nat (length xs)) in Eal by lia.
              apply len_allowed_iff in Eal; auto.
        -- intros [(xs & -> & G1 & G2 & G3) G4]. exists xs, rest. split; auto.
           apply (parses_rrep _ _ _ (pt_struct fs IH c Hwf)); auto.
           split; auto. split; auto.
           apply deduce_len_complete in G2. assert (len = Z.of_nat (length xs)) by congruence. lia.
      * split; [discriminate|]. intros [(xs & -> & G1 & G2 & G3) _]. exfalso.
        apply deduce_len_complete in G2. assert (len = Z.of_nat (length xs)) by congruence. subst.
        apply len_allowed_iff in G3; auto. congruence.
    + split; [discriminate|]. intros [(xs & -> & G1 & G2 & G3) _].
      apply deduce_len_complete in G2. congruence.
  - (* FMaybe *)
    intros b IH p ids c seen e E Hwf Ha. cbn [wf_ty] in Hwf.
    apply andb_true_iff in Hwf. destruct Hwf as [H1 H2].
    intros bs v rest Hb. cbn [read_ty valid_ty enc_ty].
    rewrite (agree_lookups _ _ _ _ Ha H1).
    destruct (lookups E ids) as [args|] eqn:El.
    + destruct (p args) eqn:Ep.
      * rewrite rmem_bind_ok. split.
        -- intros (v' & mid & G1 & G2). simpl in G2. inversion G2; subst.
           eapply IH in G1; eauto. destruct G1 as [G1 G3]. split; auto.
           exists args. split; auto. rewrite Ep. eauto.
        -- intros [(args' & G1 & G2) G3]. inversion G1; subst args'. rewrite Ep in G2.
           destruct G2 as (v' & -> & G2). exists v', rest. split; auto.
           eapply IH; eauto.
      * split.
        -- simpl. intros H; inversion H; subst. split; auto. exists args. rewrite Ep. auto.
        -- intros [(args' & G1 & G2) G3]. inversion G1; subst args'. rewrite Ep in G2.
           subst. auto.
    + split; [discriminate|]. intros [(args' & G1 & _) _]. discriminate.
  - (* FUnion *)
    intros g al IH c seen e E Hwf Ha. cbn [wf_ty] in Hwf.
    apply andb_true_iff in Hwf. destruct Hwf as [H1 H2].
    intros bs v rest Hb. cbn [read_ty valid_ty enc_ty].
    rewrite (deduce_type_agree _ _ _ _ Ha H1).
    destruct (deduce_type E g) as [[i|]|] eqn:Ed.
    + rewrite rmem_bind_ok. split.
      * intros (v' & mid & G1 & G2). simpl in G2. inversion G2; subst.
        eapply IH in G1; eauto. destruct G1 as [G1 G3]. split; auto.
        exists i, v'. repeat split; auto. apply deduce_type_iff; auto.
      * intros [(i' & v' & -> & G1 & G2) G3].
        apply deduce_type_iff in G1. rewrite Ed in G1. inversion G1; subst i'.
        exists v', rest. split; auto. eapply IH; eauto.
    + split; [discriminate|]. intros [(i' & v' & -> & G1 & G2) G3].
      apply deduce_type_iff in G1. congruence.
    + split; [discriminate|]. intros [(i' & v' & -> & G1 & G2) G3].
      apply deduce_type_iff in G1. congruence.
  - (* FNil *)
    intros c seen e E bs vs rest Hwf Ha Hd Hbi Hb. destruct vs; simpl in Hbi; [|contradiction].
    simpl. split.
    + intros H; inversion H; auto.
    + intros [_ ->]. auto.
  - (* FCons *)
    intros id t IHt k fs IHfs c seen e E bs vs rest Hwf Ha Hd Hbi Hb.
    cbn [wf_fields] in Hwf. apply andb_true_iff in Hwf. destruct Hwf as [Hwf H3].
    apply andb_true_iff in Hwf. destruct Hwf as [H1 H2].
    destruct vs as [|v vs]; simpl in Hbi; [contradiction|]. destruct Hbi as [HE Hbi].
    assert (Hd1 : exists w, lookup e id = Some w) by (apply Hd; left; auto).
    assert (Hd2 : dom fs e) by (intros id' Hin; apply Hd; right; auto).
    pose proof (parses_maperr (fun r => (r, id)) _ _ _
                  (parses_checked k (IHt c seen e E H2 Ha))) as Pt.
    cbn [read_fields valid_fields enc_fields]. rewrite rmem_bind_ok. split.
    + intros (v' & mid & G1 & G2).
      pose proof (rmem_bytes _ _ _ _ Hb G1) as Hm.
      apply Pt in G1; auto. destruct G1 as [[G1 G1'] ->].
      rewrite rmem_bind_ok in G2. destruct G2 as (vs' & mid' & G2 & G3).
      simpl in G3. inversion G3; subst.
      eapply (IHfs c (id :: seen) _ E) in G2; eauto using agree_update, dom_update.
      destruct G2 as [G2 ->]. rewrite app_assoc. auto.
    + intros [(G1 & G2 & G3) ->]. exists v, (enc_fields (c_wire c) fs vs ++ rest).
      rewrite <- app_assoc in Hb.
      split.
      * apply Pt; [rewrite <- app_assoc; auto|]. rewrite <- app_assoc. auto.
      * rewrite rmem_bind_ok. exists vs, rest. split; auto.
        apply (IHfs c (id :: seen) _ E); eauto using agree_update, dom_update.
        apply Forall_app in Hb. tauto.
  - (* ANil *)
    intros c seen e E i _ _ bs v rest Hb. simpl. split; [discriminate|]. intros [[] _].
  - (* ACons *)
    intros t IHt k al IHal c seen e E i Hwf Ha. cbn [wf_alts] in Hwf.
    apply andb_true_iff in Hwf. destruct Hwf as [H1 H2].
    destruct i as [|i]; cbn [read_alts valid_alts enc_alts].
    + apply parses_checked. eapply IHt; eauto.
    + eapply IHal; eauto.
Qed.

(** The whole cast. *)
Theorem struct_cast_correct c fs bs vs rest : wf fs = true -> Forall byte_ok bs ->
  rmem (struct_cast c fs) bs = (Ok vs, rest) <->
  valid c fs vs /\ bs = enc_fields (c_wire c) fs vs ++ rest.
Proof.
  intros Hwf Hb. unfold struct_cast, valid. unfold wf in Hwf.
  destruct (wf_fields_ids _ _ Hwf) as [Hnd _].
  destruct reader_correct as (_ & Hf & _).
  split.
  - intros H. pose proof (read_fields_length _ _ _ _ _ _ H) as Hl.
    eapply (Hf fs c [] _ (mk_env fs vs)) in H;
      eauto using binds_mk_env, dom_mk_env, default_fields_length.
    intros id; discriminate.
  - intros [H1 H2]. pose proof (valid_fields_length _ _ _ _ H1) as Hl.
    apply (Hf fs c [] _ (mk_env fs vs));
      auto using binds_mk_env, dom_mk_env, default_fields_length.
    intros id; discriminate.
Qed.
