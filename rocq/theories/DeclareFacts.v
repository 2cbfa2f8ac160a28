(** * Lemmas about declared structs *)
From Coq Require Import Lia.
From Verif Require Export StaticWf DeclareSpec KindFacts GuideFacts.
From Verif Require Import StaticDeps Safety StaticMore KindSpec GuideSpec.
Local Open Scope list_scope.

Lemma ctype_numeric : forall x c, number x \/ std_nest x \/ c_nest x -> to_ctype x = Some c -> numeric c.
Proof.
  assert (N : forall x c, number x -> to_ctype x = Some c -> numeric c).
  { intros x c H E. destruct H; injection E as <-; constructor. }
  intros x c [H|[H|H]]; [apply N; exact H| |]; revert c; induction H as [t n H|t n H IH]; intros c E; cbn in E;
    (destruct (to_ctype t) as [c'|] eqn:E'; [|discriminate]); injection E as <-; constructor; eauto.
Qed.

Lemma numeric_ctype : forall c, numeric c -> exists x, to_ctype x = Some c /\ (number x \/ std_nest x).
Proof.
  induction 1 as [s|w|n t H (x & E & D)].
  - exists (XInt s). split; [reflexivity|]. left. constructor.
  - exists (XFloat w). split; [reflexivity|]. left. constructor.
  - exists (XArray x n). cbn. rewrite E. split; [reflexivity|]. right.
    destruct D; [apply sn_num|apply sn_arr]; assumption.
Qed.

Lemma given_some {A} (b : bool) (q p : A) : (if b then Some q else None) = Some p -> b = true /\ q = p.
Proof. destruct b; intros E; inversion E; auto. Qed.

(** The field of an array of numbers. *)
Lemma to_plain_array sgn recsz x m sz k b c : number x \/ std_nest x \/ c_nest x -> to_ctype x = Some c ->
  to_plain sgn recsz (mkPlain (XArray x m) (SzBytes sz) k b) = Some (FFixed (TArr m c) sz).
Proof.
  intros D E. unfold to_plain. cbn [p_type p_size p_bound].
  destruct x; cbn in E |- *; try discriminate; try (rewrite E); try congruence.
Qed.

Lemma to_plain_vector sgn recsz x l k b c : to_ctype x = Some c ->
  to_plain sgn recsz (mkPlain (XVector x) (SzLen l) k b) = Some (FVar c l b).
Proof.
  intros E. unfold to_plain. cbn [p_type p_size p_bound].
  destruct x; try (rewrite E; reflexivity). discriminate.
Qed.

Lemma variable_size sz : sz_variable sz = true -> exists l, sz = SzLen l.
Proof. destruct sz; try discriminate. eauto. Qed.

Lemma to_ctype_number x : number x -> exists c, to_ctype x = Some c.
Proof. destruct 1; cbn; eauto. Qed.
Lemma to_ctype_std x : std_nest x -> exists c, to_ctype x = Some c.
Proof. intros H. apply to_ctype_array, fixed_array_nest, H. Qed.
Lemma to_ctype_c x : c_nest x -> exists c, to_ctype x = Some c.
Proof. intros H. apply to_ctype_c_array, c_array_nest, H. Qed.

Lemma resolved_plain a id d opts p t : resolve (a_sgn a) (a_other a) d opts = Some p ->
  field_like (CField id p) = true -> to_plain (a_sgn a) (a_recsz a) p = Some t ->
  plain_ok a t (p_constr p).
Proof.
  intros R L T. pose proof (proj1 (resolve_like _ _ _ _ _ id R) L) as S. clear L.
  unfold resolve in R. destruct (negb (pack_ok opts)); [discriminate|].
  destruct d; cbn [supported] in S;
    try match type of R with
        | match ?x with SzBytes _ => _ | _ => _ end = _ => destruct x; try discriminate
        end;
    apply given_some in R as [Hb <-]; bools; cbn [p_constr].
  - destruct t0; try discriminate. cbn in T. injection T as <-.
    apply po_int. left. apply Nat.leb_le. assumption.
  - assert (D : number t0 \/ std_nest t0 \/ c_nest t0) by tauto.
    assert (exists c, to_ctype t0 = Some c) as [c E] by (destruct S; auto using to_ctype_number, to_ctype_std).
    rewrite (to_plain_array _ _ _ _ _ _ _ _ D E) in T. injection T as <-.
    rewrite (to_ctype_size _ _ _ E). apply po_arr. eapply ctype_numeric; eauto.
  - destruct (x_record_eq _ H) as [fs ->]. cbn in T. injection T as <-. constructor.
  - cbn in T. injection T as <-. rewrite Nat.add_1_r. constructor.
  - assert (D : number t0 \/ std_nest t0 \/ c_nest t0) by tauto.
    assert (exists c, to_ctype t0 = Some c) as [c E] by (destruct S; auto using to_ctype_number, to_ctype_c).
    unfold to_plain in T. cbn in T. rewrite E in T. injection T as <-.
    rewrite (to_ctype_size _ _ _ E). apply po_arr. eapply ctype_numeric; eauto.
  - cbn in T. injection T as <-.
    replace (n * 1 + 1)%nat with ((n + 1) * csize (TScalar (SInt 1 (a_sgn a))))%nat by (cbn; lia).
    apply po_arr. constructor.
  - cbn in T. injection T as <-.
    replace (FFixed (TArr n (TScalar (SInt 1 false))) n)
      with (FFixed (TArr n (TScalar (SInt 1 false))) (n * csize (TScalar (SInt 1 false))))
      by (f_equal; cbn; lia).
    apply po_arr. constructor.
  - cbn in T. injection T as <-. rewrite Nat.add_1_r. constructor.
  - destruct t0; try discriminate. destruct sz; try discriminate. cbn in T. injection T as <-.
    apply po_int. right. eauto.
  - match goal with H : sz_variable _ = true |- _ => destruct (variable_size _ H) as [l E]; rewrite E in T end.
    destruct S as [D|[D|(fs & ->)]].
    + destruct (to_ctype_number _ D) as [c Ec]. rewrite (to_plain_vector _ _ _ _ _ _ _ Ec) in T.
      injection T as <-. apply po_var. eapply ctype_numeric; eauto.
    + destruct (to_ctype_std _ D) as [c Ec]. rewrite (to_plain_vector _ _ _ _ _ _ _ Ec) in T.
      injection T as <-. apply po_var. eapply ctype_numeric; eauto.
    + cbn in T. injection T as <-. constructor.
  - match goal with H : sz_variable _ = true |- _ => destruct (variable_size _ H) as [l E]; rewrite E in T end.
    destruct (x_record_eq _ H) as [fs ->]. cbn in T. injection T as <-. constructor.
  - match goal with H : sz_variable _ = true |- _ => destruct (variable_size _ H) as [l E]; rewrite E in T end.
    cbn in T. injection T as <-. constructor. constructor.
  - destruct (x_record_eq _ H) as [fs ->]. cbn in T. injection T as <-. constructor.
Qed.

Lemma plain_resolved a id t k : plain_ok a t k -> exists d opts p,
  resolve (a_sgn a) (a_other a) d opts = Some p /\ field_like (CField id p) = true /\
  to_plain (a_sgn a) (a_recsz a) p = Some t /\ p_constr p = k /\ forall e n, p_type p <> XCArray e n.
Proof.
  intros H. destruct H as [s n k [H|(s' & z & ->)]|m t k H|m k|t l b k H|fs k|m fs k|fs l b k].
  - exists (BasicField (XInt s)), [OptSize (SzBytes n); OptConstr k]. eexists. split.
    + cbn. apply Nat.leb_le in H. rewrite H. reflexivity.
    + repeat split; cbn; congruence.
  - exists (MagicNumber (XInt s) (SzBytes n) s' z), []. eexists. split; [reflexivity|].
    repeat split; cbn; congruence.
  - destruct (numeric_ctype _ H) as (x & E & D).
    assert (D' : number x \/ std_nest x \/ c_nest x) by tauto.
    assert (R : resolve (a_sgn a) (a_other a) (FixedArrayField x m) [OptConstr k] =
      Some (mkPlain (XArray x m) (SzBytes (m * csize t)) k None)).
    { cbn. unfold x_containable, x_fixed_buffer. rewrite (to_ctype_size _ _ _ E).
      destruct D as [D|D].
      - apply arithmetic_number in D. rewrite D, !Bool.orb_true_r. reflexivity.
      - apply fixed_array_nest in D. rewrite D. reflexivity. }
    eexists _, _, _. split; [exact R|]. split.
    { apply (resolve_like _ _ _ _ _ id R). cbn. tauto. }
    split; [apply to_plain_array; assumption|]. split; [reflexivity|]. cbn. congruence.
  - exists (FixedStringField m), [OptConstr k]. eexists. split; [reflexivity|].
    rewrite Nat.add_1_r. repeat split; cbn; congruence.
  - destruct (numeric_ctype _ H) as (x & E & D).
    assert (R : resolve (a_sgn a) (a_other a) (VecField x) [OptSize (SzLen l); OptConstr k; OptBound b] =
      Some (mkPlain (XVector x) (SzLen l) k b)) by reflexivity.
    eexists _, _, _. split; [exact R|]. split.
    { apply (resolve_like _ _ _ _ _ id R). cbn. tauto. }
    split; [apply to_plain_vector; assumption|]. split; [reflexivity|]. cbn. congruence.
  - exists (StructField (XRecord fs)), [OptConstr k]. eexists. split; [reflexivity|].
    repeat split; cbn; congruence.
  - exists (ArrayOfRecords (XRecord fs) m), [OptConstr k]. eexists. split; [reflexivity|].
    repeat split; cbn; congruence.
  - exists (VectorOfRecords (XRecord fs)), [OptSize (SzLen l); OptConstr k; OptBound b]. eexists.
    split; [reflexivity|]. repeat split; cbn; congruence.
Qed.

(** ** Alternatives *)

Lemma trivial_num x : x_trivial x = true -> exists c, num x c /\ to_ctype x = Some c.
Proof. destruct x; try discriminate; cbn; eexists; split; try reflexivity; constructor. Qed.

Lemma num_ctype x c : num x c -> to_ctype x = Some c /\ x_trivial x = true /\ number x.
Proof. destruct 1; cbn; auto using num_int, num_float. Qed.

Lemma resolved_alt a d opts p : resolve_tag (a_other a) d opts = Some p ->
  exists t, to_plain (a_sgn a) (a_recsz a) p = Some t /\ alt_ok a (p_type p) t.
Proof.
  intros R. unfold resolve_tag in R. destruct (negb (pack_ok opts)); [discriminate|].
  destruct d;
    try match type of R with
        | match ?x with SzBytes _ => _ | _ => _ end = _ => destruct x; try discriminate
        end;
    apply given_some in R as [Hb <-]; bools; cbn [p_type].
  - destruct (trivial_num _ H) as (c & Hn & E). exists (FFixed c n). split.
    + destruct Hn; reflexivity.
    + apply ao_num; [exact Hn|]. rewrite <- (to_ctype_size (a_other a) _ _ E). apply Nat.leb_le. assumption.
  - destruct (x_record_eq _ H) as [fs ->]. eexists. split; [reflexivity|constructor].
  - destruct (trivial_num _ H) as (c & Hn & E). destruct (num_ctype _ _ Hn) as (_ & _ & N).
    eexists. split; [apply to_plain_array; [left; exact N|exact E]|].
    rewrite (to_ctype_size _ _ _ E). apply ao_arr. exact Hn.
  - eexists. split; [reflexivity|]. rewrite Nat.add_1_r. apply ao_str.
  - match goal with H : sz_variable _ = true |- _ => destruct (variable_size _ H) as [l El]; rewrite El end.
    destruct (trivial_num _ H) as (c & Hn & E).
    eexists. split; [apply to_plain_vector; exact E|]. constructor. exact Hn.
  - match goal with H : sz_variable _ = true |- _ => destruct (variable_size _ H) as [l El]; rewrite El end.
    eexists. split; [reflexivity|constructor].
  - destruct (x_record_eq _ H) as [fs ->]. eexists. split; [reflexivity|constructor].
  - match goal with H : sz_variable _ = true |- _ => destruct (variable_size _ H) as [l El]; rewrite El end.
    destruct (x_record_eq _ H) as [fs ->]. eexists. split; [reflexivity|constructor].
Qed.

Lemma alt_resolved a x t k : alt_ok a x t -> exists d opts p,
  resolve_tag (a_other a) d opts = Some p /\ p_type p = x /\ p_constr p = k /\
  to_plain (a_sgn a) (a_recsz a) p = Some t.
Proof.
  intros H. destruct H as [x c n Hn Hl|x c m Hn|m|x c l b Hn|l b|fs|m fs|fs l b].
  - exists (AsTrivial x), [OptSize (SzBytes n); OptConstr k], (mkPlain x (SzBytes n) k None).
    destruct (num_ctype _ _ Hn) as (E & T & N).
    split; [|split; [reflexivity|split; [reflexivity|destruct Hn; reflexivity]]].
    cbn. rewrite (to_ctype_size _ _ _ E), T. apply Nat.leb_le in Hl. rewrite Hl. reflexivity.
  - destruct (num_ctype _ _ Hn) as (E & T & N).
    exists (AsFixedArr x m), [OptConstr k], (mkPlain (XArray x m) (SzBytes (m * csize c)) k None).
    split; [|split; [reflexivity|split; [reflexivity|apply to_plain_array; auto]]].
    cbn. rewrite (to_ctype_size _ _ _ E), T. reflexivity.
  - exists (AsFixedString m), [OptConstr k], (mkPlain (XFixStr m) (SzBytes (S m)) k None).
    repeat split. cbn. rewrite Nat.add_1_r. reflexivity.
  - destruct (num_ctype _ _ Hn) as (E & T & N).
    exists (AsVec x), [OptSize (SzLen l); OptConstr k; OptBound b], (mkPlain (XVector x) (SzLen l) k b).
    split; [|split; [reflexivity|split; [reflexivity|apply to_plain_vector; auto]]].
    cbn. rewrite T. reflexivity.
  - exists AsString, [OptSize (SzLen l); OptConstr k; OptBound b], (mkPlain XString (SzLen l) k b).
    repeat split.
  - exists (AsStruct (XRecord fs)), [OptConstr k], (mkPlain (XRecord fs) SzDontCare k None).
    repeat split.
  - exists (AsArrOfRecords (XRecord fs) m), [OptConstr k], (mkPlain (XArray (XRecord fs) m) SzDontCare k None).
    repeat split.
  - exists (AsVecOfRecords (XRecord fs)), [OptSize (SzLen l); OptConstr k; OptBound b],
      (mkPlain (XVector (XRecord fs)) (SzLen l) k b).
    repeat split.
Qed.

Lemma alts_resolved a tags ps al :
  Forall2 (fun d p => resolve_tag (a_other a) (fst d) (snd d) = Some p) tags ps ->
  to_alts (a_sgn a) (a_recsz a) ps = Some al -> Forall2 (alt_ok a) (map p_type ps) (a_types al).
Proof.
  intros H. revert al. induction H as [|d p tags ps R _ IH]; intros al E; cbn in E.
  - injection E as <-. constructor.
  - destruct (resolved_alt _ _ _ _ R) as (t & T & O). rewrite T in E.
    destruct (to_alts _ _ ps) as [al'|]; [|discriminate]. injection E as <-. cbn. constructor; auto.
Qed.

Lemma resolved_alts a : forall al xs, Forall2 (alt_ok a) xs (a_types al) ->
  exists tags ps, Forall2 (fun d p => resolve_tag (a_other a) (fst d) (snd d) = Some p) tags ps /\
    map p_type ps = xs /\ to_alts (a_sgn a) (a_recsz a) ps = Some al.
Proof.
  induction al as [|t k al IH]; intros xs H; cbn in H; inversion H; subst.
  - exists [], []. repeat split. constructor.
  - destruct (IH _ H4) as (tags & ps & F & E1 & E2).
    destruct (alt_resolved a _ t k H3) as (d & o & p & R & E3 & E4 & E5).
    exists ((d, o) :: tags), (p :: ps). split; [constructor; auto|]. cbn.
    rewrite E1, E2, E3, E4, E5. auto.
Qed.

(** ** Unions *)

Definition mint (c : sty * Z) : mval := MInt (fst c) (snd c).

Lemma cases_back : forall cases (tags : list (tag * list opt)), length cases = length tags ->
  all_some (map to_case (case_list (combine (map mint cases) tags))) = Some cases /\
  map snd (combine (map mint cases) tags) = tags /\ map fst (combine (map mint cases) tags) = map mint cases.
Proof.
  induction cases as [|[s z] cases IH]; intros [|[d o] tags] L; try discriminate; [repeat split; reflexivity|].
  injection L as L. destruct (IH _ L) as (E1 & E2 & E3). cbn [map combine]. rewrite to_case_cons.
  cbn [mint fst snd]. rewrite E1. cbn [map fst snd]. rewrite E2, E3. auto.
Qed.

Lemma branches_back : forall (bs : list ((list val -> Z) * list ident)) (tags : list (tag * list opt)),
  length bs = length tags ->
  all_some (map to_branch (branch_list (combine bs tags))) =
    Some (map (fun b => (fun vs => negb (fst b vs =? 0)%Z, snd b)) bs) /\
  map snd (combine bs tags) = tags.
Proof.
  induction bs as [|[f ids] bs IH]; intros [|[d o] tags] L; try discriminate; [repeat split; reflexivity|].
  injection L as L. destruct (IH _ L) as (E1 & E2). cbn [map combine]. rewrite to_branch_cons.
  rewrite E1. cbn [map fst snd]. rewrite E2. auto.
Qed.

Lemma callables : forall brs : list ((list val -> bool) * list ident),
  Forall (fun b => bool_callable (fst b)) brs ->
  exists bs : list ((list val -> Z) * list ident),
    brs = map (fun b => (fun vs => negb (fst b vs =? 0)%Z, snd b)) bs.
Proof.
  induction 1 as [|[p ids] brs (f & E) _ (bs & ->)]; [exists []; reflexivity|].
  exists ((f, ids) :: bs). cbn in *. rewrite E. reflexivity.
Qed.

Definition taken (other : cxx -> nat) (d : tag * list opt) : Prop :=
  exists p, resolve_tag other (fst d) (snd d) = Some p.

Lemma formed_cases other (l : list (mval * (tag * list opt))) : Forall (taken other) (map snd l) ->
  forallb is_match_case (case_list l) = true /\ forallb (formed other) (case_list l) = true.
Proof.
  induction l as [|[v [d o]] l IH]; intros F; [auto|]. inversion F as [|? ? (p & E) F']; subst.
  destruct (IH F') as [E1 E2]. unfold case_list, branch_list in *. cbn in *. rewrite E, E1, E2. auto.
Qed.

Lemma formed_branches other (l : list ((list val -> Z) * list ident * (tag * list opt))) :
  Forall (taken other) (map snd l) ->
  forallb is_branch (branch_list l) = true /\ forallb (formed other) (branch_list l) = true.
Proof.
  induction l as [|[[f i] [d o]] l IH]; intros F; [auto|]. inversion F as [|? ? (p & E) F']; subst.
  destruct (IH F') as [E1 E2]. unfold case_list, branch_list in *. cbn in *. rewrite E, E1, E2. auto.
Qed.

Lemma told_mint szw cases :
  Forall2 (told_apart_by szw) (map mint cases) (map (fun sv => (snd sv mod 256 ^ Z.of_nat szw)%Z) cases).
Proof.
  induction cases as [|[s z] cases IH]; constructor; [|exact IH]. apply to_size_t_iff. reflexivity.
Qed.

Lemma guide_ok_targ a G g (tags : list (tag * list opt)) : guide_ok G g (length tags) -> tags <> [] ->
  Forall (taken (a_other a)) tags -> NoDup (match_values_of (a_szw a) g) ->
  exists t, formed (a_other a) t = true /\ guide_form t /\ tags_are t tags /\
    (exists vs ns, values_are t vs /\ Forall2 (told_apart_by (a_szw a)) vs ns /\ NoDup ns) /\
    to_guide (disc_of G) t = Some g.
Proof.
  intros O NE T N. destruct g as [id s cases|f r ids cases|brs]; cbn in O.
  - destruct O as [L (m & D)]. destruct (cases_back _ _ L) as (E1 & E2 & E3).
    set (l := combine (map mint cases) tags) in *.
    assert (l <> []) as NL by (intros E; apply NE; rewrite <- E2, E; reflexivity).
    rewrite <- E2 in T. destruct (formed_cases _ _ T) as [F1 F2].
    exists (TType [TAccessor id; TSwitch (case_list l)]). split; [|split; [|split; [|split]]].
    + cbn [formed forallb]. rewrite F1, F2. destruct l; [contradiction|]. reflexivity.
    + constructor. exact NL.
    + rewrite <- E2. constructor.
    + exists (map mint cases), (map (fun sv => (snd sv mod 256 ^ Z.of_nat (a_szw a))%Z) cases).
      split; [rewrite <- E3; constructor|]. split; [apply told_mint|exact N].
    + cbn. unfold disc_of. rewrite D, E1. reflexivity.
  - destruct (cases_back _ _ O) as (E1 & E2 & E3).
    set (l := combine (map mint cases) tags) in *.
    assert (l <> []) as NL by (intros E; apply NE; rewrite <- E2, E; reflexivity).
    rewrite <- E2 in T. destruct (formed_cases _ _ T) as [F1 F2].
    exists (TType [TCompute f (RInt r) ids; TSwitch (case_list l)]). split; [|split; [|split; [|split]]].
    + cbn [formed forallb]. rewrite F1, F2. destruct l; [contradiction|]. reflexivity.
    + constructor. exact NL.
    + rewrite <- E2. constructor.
    + exists (map mint cases), (map (fun sv => (snd sv mod 256 ^ Z.of_nat (a_szw a))%Z) cases).
      split; [rewrite <- E3; constructor|]. split; [apply told_mint|exact N].
    + cbn. rewrite E1. reflexivity.
  - destruct O as [L C]. destruct (callables _ C) as (bs & ->). rewrite map_length in L.
    destruct (branches_back _ _ L) as (E1 & E2). set (l := combine bs tags) in *.
    assert (l <> []) as NL by (intros E; apply NE; rewrite <- E2, E; reflexivity).
    rewrite <- E2 in T. destruct (formed_branches _ _ T) as [F1 F2].
    exists (TType [TIfElse (branch_list l)]). split; [|split; [|split; [|split]]].
    + cbn [formed forallb]. rewrite F1, F2. destruct l; [contradiction|]. reflexivity.
    + constructor. exact NL.
    + rewrite <- E2. constructor.
    + exists [], []. split; [constructor|]. split; constructor.
    + cbn. rewrite E1. reflexivity.
Qed.

Lemma branches_callable l bs : all_some (map to_branch (branch_list l)) = Some bs ->
  Forall (fun b => bool_callable (fst b)) bs.
Proof.
  revert bs. induction l as [|[[f ids] d] l IH]; intros bs H.
  - injection H as <-. constructor.
  - rewrite to_branch_cons in H. destruct (all_some (map to_branch (branch_list l))); [|discriminate].
    injection H as <-. constructor; [exists f; reflexivity|apply IH; reflexivity].
Qed.

Lemma to_guide_ok G t g n : guide_form t -> to_guide (disc_of G) t = Some g ->
  match g with GField _ _ cs | GComp _ _ _ cs => length cs = n | GLadder bs => length bs = n end ->
  guide_ok G g n.
Proof.
  intros F T L. destruct F as [id l H|f r ids l H|l H]; cbn in T.
  - unfold disc_of in T. destruct (tlookup G id) as [[[s| | |] m| | | | | |]|] eqn:E; try discriminate.
    destruct (all_some _); [|discriminate]. injection T as <-. cbn. eauto.
  - destruct r; [|discriminate]. destruct (all_some _); [|discriminate]. injection T as <-. exact L.
  - destruct (all_some _) eqn:A; [|discriminate]. injection T as <-. split; [exact L|].
    eapply branches_callable; eauto.
Qed.

(** ** Fields and lists *)

Lemma class_field_ok a G id x f t k : class_of a G id x = Some f ->
  to_field (a_sgn a) (a_recsz a) f = Some (t, k) -> field_ok a G t k.
Proof.
  intros C T. destruct x as [d opts|d opts pred ids|tg opts]; cbn [class_of] in C.
  - destruct (resolve _ _ d opts) as [p|] eqn:R; [|discriminate].
    destruct (field_like (CField id p)) eqn:L; [|discriminate]. injection C as <-. cbn in T.
    destruct (to_plain _ _ p) as [t'|] eqn:E; [|discriminate]. injection T as <- <-.
    apply fo_plain. eapply resolved_plain; eauto.
  - destruct (resolve _ _ d opts) as [p|] eqn:R; [|discriminate].
    destruct (field_like (CField id p)) eqn:L; [|discriminate].
    apply resolve_maybe_iff in C as (id' & p' & [= <- <-] & -> & N & _). cbn in T.
    destruct (to_plain _ _ p) as [t'|] eqn:E; [|discriminate]. injection T as <- <-.
    apply fo_maybe. rewrite <- N. eapply resolved_plain; eauto.
  - destruct (formed (a_other a) tg) eqn:F; [|discriminate].
    destruct (variance _ _ _ tg opts) as [ps|] eqn:V; [|discriminate].
    destruct (to_guide (disc_of G) tg) as [g|] eqn:U; [|discriminate]. injection C as <-.
    destruct (to_guide_variance _ _ _ _ id _ _ _ _ F V U) as (RV & _ & Len).
    apply resolve_variance_iff in RV. apply variance_iff in V as (GF & (tags & TA & R) & ND & _ & _); [|exact F].
    cbn in T. destruct (to_alts _ _ ps) as [al|] eqn:A; [|discriminate]. injection T as <- <-.
    apply (fo_union _ _ _ _ _ (map p_type ps)).
    + rewrite map_length. eapply to_guide_ok; eauto.
    + intros E. apply map_eq_nil in E. subst ps. inversion R. subst tags.
      destruct GF as [? l H|? ? ? l H|l H];
        [pose proof (tags_are_fun _ _ _ TA (ta_switch _ l)) as E|pose proof (tags_are_fun _ _ _ TA (ta_switch _ l)) as E
        |pose proof (tags_are_fun _ _ _ TA (ta_ladder l)) as E];
        symmetry in E; apply map_eq_nil in E; contradiction.
    + eapply alts_resolved; eauto.
    + rewrite map_map. exact ND.
    + destruct RV as (? & _ & _ & _ & RV). exact RV.
Qed.

Lemma field_ok_class a G id t k : field_ok a G t k ->
  exists x f, class_of a G id x = Some f /\ to_field (a_sgn a) (a_recsz a) f = Some (t, k).
Proof.
  intros H. destruct H as [t k H|t p ids H|g al k xs O NE F ND NV].
  - destruct (plain_resolved a id _ _ H) as (d & opts & p & R & L & T & <- & _).
    exists (DField d opts), (CField id p). cbn [class_of to_field]. rewrite R, L, T. auto.
  - destruct (plain_resolved a id _ _ H) as (d & opts & q & R & L & T & N & NC).
    exists (DMaybe d opts p ids), (CMaybe (CField id q) p ids). cbn [class_of to_field]. rewrite R, L, T.
    split; [|reflexivity]. apply resolve_maybe_iff. eauto 8.
  - destruct (resolved_alts _ _ _ F) as (tags & ps & R & <- & A).
    pose proof (F2_len _ _ _ R) as Len.
    rewrite map_length, <- Len in O.
    destruct (guide_ok_targ a G g tags O) as (tg & FM & GF & TA & V & U); auto.
    { intros ->. destruct ps; [contradiction|discriminate]. }
    { clear - R. induction R; constructor; [eexists; eassumption|assumption]. }
    assert (variance (a_szw a) (a_other a) (a_tid a) tg [OptConstr k] = Some ps) as E.
    { apply variance_iff; [exact FM|]. split; [exact GF|]. split; [eauto|].
      split; [rewrite <- (map_map p_type (a_tid a)); exact ND|]. split; [exact V|]. eauto. }
    exists (DVariance tg [OptConstr k]), (CUnion id g ps k). cbn [class_of to_field].
    rewrite FM, E, U, A. auto.
Qed.

Lemma declare_list_ok a : forall ds G fs, declare_list a G ds = Some fs ->
  fields_ok a G fs /\ f_ids fs = map fst ds.
Proof.
  induction ds as [|[id x] ds IH]; intros G fs H; cbn in H.
  - injection H as <-. split; [constructor|reflexivity].
  - destruct (class_of a G id x) as [f|] eqn:C; [|discriminate].
    destruct (to_field _ _ f) as [[t k]|] eqn:T; [|discriminate].
    destruct (declare_list a _ ds) as [fs'|] eqn:D; [|discriminate]. injection H as <-.
    destruct (IH _ _ D) as [K E]. split; [|cbn; congruence].
    constructor; [eapply class_field_ok; eauto|exact K].
Qed.

Lemma ok_declare_list a : forall G fs, fields_ok a G fs -> exists ds, declare_list a G ds = Some fs.
Proof.
  induction 1 as [G|G id t k fs H _ (ds & D)]; [exists []; reflexivity|].
  destruct (field_ok_class a G id t k H) as (x & f & C & T).
  exists ((id, x) :: ds). cbn. rewrite C, T, D. reflexivity.
Qed.

Lemma struct_field_list_iff a gs : (exists ds, struct_field_list a ds = Some gs) <->
  fields_ok a [] gs /\ list_accepted gs = true.
Proof.
  unfold struct_field_list. split.
  - intros (ds & H). destruct (declare_list a [] ds) as [fs|] eqn:D; [|discriminate].
    destruct (list_accepted fs) eqn:L; [|discriminate]. injection H as <-.
    split; [apply (declare_list_ok _ _ _ _ D)|exact L].
  - intros [K L]. destruct (ok_declare_list _ _ _ K) as (ds & D). exists ds. rewrite D, L. reflexivity.
Qed.

Lemma plain_ok_described a szw t k : plain_ok a t k -> StaticSpec.described szw k t /\ plain_field t.
Proof. destruct 1; cbn; auto. Qed.

Lemma fields_ok_in a : forall G gs id t k, fields_ok a G gs -> In (id, t, k) (f_list gs) ->
  exists G', field_ok a G' t k.
Proof.
  intros G gs id t k H. induction H as [G|G id' t' k' fs H _ IH]; cbn; [tauto|].
  intros [E|E]; [injection E as <- <- <-; eauto|auto].
Qed.

Lemma field_ok_described a G t k : field_ok a G t k -> StaticSpec.described (a_szw a) k t.
Proof.
  assert (NK : ~ exists s z, CNone = CCmp OEq s z) by (intros (s & z & E); discriminate).
  intros H. destruct H as [t k H|t p ids H|g al k xs O NE F ND NV].
  - apply (plain_ok_described _ _ _ _ H).
  - cbn. inversion H; subst; cbn; try tauto. 
  - cbn. split; [exact NV|]. clear - F. revert xs F.
    induction al as [|t k' al IH]; intros xs F; cbn in F; inversion F; subst; constructor; eauto.
    match goal with H : alt_ok _ _ _ |- _ => inversion H as [? ? ? N L| | | | | | |]; subst; cbn; auto end.
    destruct N; cbn in *; auto.
Qed.

Lemma declared_fine a fs gs : declared a fs -> In gs (lists fs) -> fine (a_szw a) gs.
Proof.
  intros D Hin. apply D in Hin. apply struct_field_list_iff in Hin as [K L]. split; [exact L|].
  intros id t k Ht. destruct (fields_ok_in _ _ _ _ _ _ K Ht) as (G & O). eapply field_ok_described; eauto.
Qed.

Lemma declared_accepted a fs : declared a fs -> accepted (a_szw a) fs = true.
Proof.
  intros D. unfold accepted. destruct (declared_fine a fs fs D (or_introl eq_refl)) as [A B].
  rewrite A. apply (proj1 (proj2 (described_accepted (a_szw a)))); auto.
  intros gs Hin. eapply declared_fine; eauto. right. exact Hin.
Qed.

Lemma declared_iff a fs : (forall gs, In gs (lists fs) -> named gs) ->
  (declared a fs <-> forall gs, In gs (lists fs) ->
     fields_ok a [] gs /\ NoDup (f_ids gs) /\ small gs /\ uses_earlier_or_itself gs).
Proof.
  intros N. split.
  - intros D gs Hin. pose proof (proj1 (accepted_exact (a_szw a) fs N) (declared_accepted a fs D) gs Hin).
    apply D in Hin. apply struct_field_list_iff in Hin. tauto.
  - intros H gs Hin. destruct (H gs Hin) as (K & H1 & H2 & H3). apply struct_field_list_iff.
    split; [exact K|].
    assert (P : forall id t k, In (id, t, k) (f_list gs) -> StaticSpec.described (a_szw a) k t).
    { intros id t k Ht. destruct (fields_ok_in _ _ _ _ _ _ K Ht) as (G & O). eapply field_ok_described; eauto. }
    apply (accepted_list_named gs (described_plain _ _ P) (N _ Hin)). auto.
Qed.

Lemma struct_field_list_ids a ds fs : struct_field_list a ds = Some fs -> f_ids fs = map fst ds.
Proof.
  unfold struct_field_list. intros H. destruct (declare_list a [] ds) as [fs'|] eqn:D; [|discriminate].
  destruct (list_accepted fs'); [|discriminate]. injection H as <-. apply (declare_list_ok _ _ _ _ D).
Qed.

Lemma declared_wf a fs : declared a fs -> sizes_fields fs = true ->
  (forall gs, In gs (lists fs) -> named gs) ->
  (forall gs id t k, In gs (lists fs) -> In (id, t, k) (f_list gs) -> ~ In id (uses t)) ->
  wf fs = true.
Proof. intros D. apply accepted_wf with (a_szw a). apply declared_accepted. exact D. Qed.

Lemma declared_field a fs gs id t k : declared a fs -> In gs (lists fs) -> In (id, t, k) (f_list gs) ->
  exists G, field_ok a G t k.
Proof.
  intros D Hin Ht. apply D, struct_field_list_iff in Hin as [K _]. eapply fields_ok_in; eauto.
Qed.

Lemma alts_len al : length (a_types al) = a_len al.
Proof. induction al; cbn; congruence. Qed.

Lemma declared_alternatives a fs gs id g al k : declared a fs -> In gs (lists fs) ->
  In (id, FUnion g al, k) (f_list gs) ->
  exists xs, Forall2 (alt_ok a) xs (a_types al) /\ NoDup xs /\ xs <> [].
Proof.
  intros D Hin Ht. destruct (declared_field _ _ _ _ _ _ D Hin Ht) as (G & O).
  inversion O as [? ? P| |? ? ? xs GO NE F ND NV]; subst; [inversion P|].
  exists xs. split; [exact F|]. split; [eapply NoDup_map_inv; exact ND|exact NE].
Qed.

Lemma fields_ok_split a : forall pre G gs id t k post, fields_ok a G gs ->
  f_list gs = pre ++ (id, t, k) :: post ->
  field_ok a (rev (map (fun x => (fst (fst x), snd (fst x))) pre) ++ G) t k.
Proof.
  induction pre as [|[[i t'] k'] pre IH]; intros G gs id t k post H E;
    destruct H as [G|G id0 t0 k0 gs' F K]; cbn in E; try discriminate.
  - injection E as <- <- <- _. exact F.
  - injection E as <- <- <- E. specialize (IH _ _ _ _ _ _ K E). cbn [map rev fst snd].
    rewrite <- app_assoc. exact IH.
Qed.

Lemma tlookup_in : forall G id t, tlookup G id = Some t -> In (id, t) G.
Proof.
  induction G as [|[i t'] G IH]; intros id t H; cbn in H; [discriminate|].
  destruct (String.eqb_spec i id) as [->|N]; [injection H as <-; left; reflexivity|right; auto].
Qed.

Lemma declared_discriminant a fs gs pre id d s cases al k post : declared a fs -> In gs (lists fs) ->
  f_list gs = pre ++ (id, FUnion (GField d s cases) al, k) :: post ->
  length cases = a_len al /\
  exists n k', In (d, FFixed (TScalar s) n, k') pre.
Proof.
  intros D Hin E. apply D, struct_field_list_iff in Hin as [K _].
  pose proof (fields_ok_split a _ _ _ _ _ _ _ K E) as O. rewrite app_nil_r in O.
  inversion O as [? ? P| |? ? ? xs GO NE F ND NV]; subst; [inversion P|].
  destruct GO as [L (m & T)]. split; [rewrite L, (F2_len _ _ _ F); apply alts_len|].
  apply tlookup_in, in_rev in T. rewrite ?rev_involutive in T. apply in_map_iff in T as ([[i t'] k'] & E' & T).
  cbn in E'. injection E' as -> ->. eauto.
Qed.

Lemma declared_no_float a fs gs id w n k : declared a fs -> In gs (lists fs) ->
  ~ In (id, FFixed (TFloat w) n, k) (f_list gs) /\
  forall p ids, ~ In (id, FMaybe (FFixed (TFloat w) n) p ids, k) (f_list gs).
Proof.
  intros D Hin. split; [|intros p ids]; intros Ht; destruct (declared_field _ _ _ _ _ _ D Hin Ht) as (G & O).
  - inversion O as [? ? P| |]; subst. inversion P.
  - inversion O as [? ? P|? ? ? P|]; subst; inversion P.
Qed.

(** ** Typing *)

Definition tenv_of (pre : list (ident * fty * constr)) : tenv :=
  rev (map (fun x => (fst (fst x), snd (fst x))) pre).

Lemma tlookup_unique : forall (G : tenv) id t, NoDup (map fst G) -> In (id, t) G -> tlookup G id = Some t.
Proof.
  induction G as [|[i t'] G IH]; intros id t N H; [contradiction|]. inversion N; subst. cbn.
  destruct H as [E|H].
  - injection E as -> ->. rewrite String.eqb_refl. reflexivity.
  - destruct (String.eqb_spec i id) as [->|_]; [|auto].
    exfalso. match goal with H : ~ In _ _ |- _ => apply H end. apply in_map_iff. exists (id, t). auto.
Qed.

Lemma ids_list gs : f_ids gs = map (fun x => fst (fst x)) (f_list gs).
Proof. induction gs; cbn; congruence. Qed.

Lemma nodup_tenv gs pre x post : NoDup (f_ids gs) -> f_list gs = pre ++ x :: post ->
  NoDup (map fst (tenv_of pre)).
Proof.
  intros N E. rewrite ids_list, E, map_app in N. unfold tenv_of. rewrite map_rev, map_map. cbn.
  apply NoDup_rev. revert N. generalize (map (fun x => fst (fst x)) (x :: post)).
  induction (map (fun x => fst (fst x)) pre) as [|i l IH]; intros m N; [constructor|].
  inversion N; subst. constructor; [|eauto]. rewrite in_app_iff in *. tauto.
Qed.

Definition len_good (G : tenv) (t : fty) : Prop :=
  forall d, In d (plain_lengths t) -> exists s n, tlookup G d = Some (FFixed (TScalar s) n).

Lemma lens_typed G l : (forall d, In d (match l with LenField d => [d] | LenComp _ _ => [] end) ->
  exists s n, tlookup G d = Some (FFixed (TScalar s) n)) -> len_typed G l = true.
Proof. destruct l as [d|]; intros H; [|reflexivity]. destruct (H d) as (s & n & E); [left; auto|]. cbn. rewrite E. auto. Qed.

Lemma sty_eqb_refl s : sty_eqb s s = true.
Proof. destruct s; cbn; rewrite ?Nat.eqb_refl; auto. apply Bool.eqb_reflx. Qed.

Lemma guide_ok_typed G g n : guide_ok G g n -> guide_typed G g n = true.
Proof.
  destruct g; cbn.
  - intros [L (m & T)]. rewrite T, sty_eqb_refl, L, Nat.eqb_refl. reflexivity.
  - intros ->. apply Nat.eqb_refl.
  - intros [L _]. rewrite L. apply Nat.eqb_refl.
Qed.

Definition all_good (a : abi) (gs : fields) : Prop :=
  fields_ok a [] gs /\ NoDup (f_ids gs) /\ constraints_taken gs /\ lengths_are_integers gs.

Lemma flat_of_plain a t k : plain_ok a t k -> flat t = true.
Proof. destruct 1; reflexivity. Qed.
Lemma flat_of_alt a x t : alt_ok a x t -> flat t = true.
Proof. destruct 1; reflexivity. Qed.

Lemma typed_parts a :
  (forall t, forall G, (forall gs, In gs (lists_ty t) -> all_good a gs) ->
     (forall d, In d (named_lengths t) -> exists s n, tlookup G d = Some (FFixed (TScalar s) n)) ->
     (forall g al u k', t = FUnion g al -> In (u, k') (a_list al) -> constr_ok u k' = true) ->
     flat t = true \/ (exists k, field_ok a G t k) -> typed_ty G t = true) /\
  (forall fs, forall gs0 pre, f_list gs0 = pre ++ f_list fs -> all_good a gs0 ->
     (forall gs, In gs (lists_fields fs) -> all_good a gs) -> typed_fields (tenv_of pre) fs = true) /\
  (forall al, forall G xs, (forall gs, In gs (lists_alts al) -> all_good a gs) ->
     (forall d, In d (flat_map plain_lengths (a_types al)) -> exists s n, tlookup G d = Some (FFixed (TScalar s) n)) ->
     (forall u k', In (u, k') (a_list al) -> constr_ok u k' = true) ->
     Forall2 (alt_ok a) xs (a_types al) -> typed_alts G al = true).
Proof.
  assert (P : forall t (G : tenv), flat t = true -> named_lengths t = plain_lengths t) by (intros []; auto; discriminate).
  assert (R : forall fs, (forall gs0 pre, f_list gs0 = pre ++ f_list fs -> all_good a gs0 ->
     (forall gs, In gs (lists_fields fs) -> all_good a gs) -> typed_fields (tenv_of pre) fs = true) ->
     (forall gs, fs = gs \/ In gs (lists_fields fs) -> all_good a gs) -> typed_fields [] fs = true).
  { intros fs IH L. apply (IH fs []); auto. }
  apply schema_mutind; cbn [typed_ty typed_fields typed_alts lists_ty lists_fields lists_alts].
  - auto.
  - intros e l b G _ H _ _. apply lens_typed. destruct l; cbn in *; auto.
  - intros fs IH G L _ _ _. apply R; auto.
  - intros n fs IH G L _ _ _. apply R; auto.
  - intros fs IH r l b G L H _ _. rewrite (R fs IH L). apply lens_typed. destruct l; cbn in *; auto.
  - intros b IH p ids G L H _ [F|(k & O)]; [discriminate|].
    inversion O as [? ? Q|? ? ? Q|]; subst; [inversion Q|].
    rewrite (flat_of_plain _ _ _ Q). cbn [andb]. apply IH; auto.
    + intros d. rewrite (P b G (flat_of_plain _ _ _ Q)). apply H.
    + intros g al u k' ->. inversion Q.
    + left. exact (flat_of_plain _ _ _ Q).
  - intros g al IH G L H C [F|(k & O)]; [discriminate|].
    inversion O as [? ? Q| |? ? ? xs GO NE F ND NV]; subst; [inversion Q|].
    rewrite (F2_len _ _ _ F), alts_len in GO. rewrite (guide_ok_typed _ _ _ GO). cbn [andb].
    apply (IH G xs); auto. intros u k'. apply (C g al u k' eq_refl).
  - reflexivity.
  - intros id t IH k fs IHf gs0 pre E GG L. cbn [f_list] in E.
    destruct GG as (K & N & C & I).
    assert (Hin : In (id, t, k) (f_list gs0)) by (rewrite E, in_app_iff; cbn; auto).
    destruct (C id t k Hin) as [C1 C2].
    rewrite IH; [rewrite C1; cbn [andb]| | | |].
    + specialize (IHf gs0 (pre ++ [(id, t, k)])). rewrite <- app_assoc in IHf. cbn [app] in IHf.
      unfold tenv_of in IHf. rewrite map_app, rev_app_distr in IHf. cbn [map rev app fst snd] in IHf.
      apply IHf; [exact E|exact (conj K (conj N (conj C I)))|]. intros gs Hgs. apply L. apply in_app_iff. auto.
    + intros gs Hgs. apply L. apply in_app_iff. auto.
    + intros d Hd. destruct (I pre id t k (f_list fs) d E Hd) as (s & n & k' & Hd').
      exists s, n. apply tlookup_unique; [eapply nodup_tenv; eauto|].
      unfold tenv_of. apply -> in_rev. apply in_map_iff. exists (d, FFixed (TScalar s) n, k'). auto.
    + exact C2.
    + right. exists k. pose proof (fields_ok_split a _ _ _ _ _ _ _ K E) as O. rewrite app_nil_r in O. exact O.
  - reflexivity.
  - intros t IH k al IHa G xs L H C F. cbn [a_types] in F. inversion F as [|x ? ? ? Fx Fr]; subst.
    rewrite (flat_of_alt _ _ _ Fx), (C t k) by (left; reflexivity). cbn [andb].
    rewrite (IHa G l) ; cbn [a_types flat_map a_list] in *; auto.
    + rewrite Bool.andb_true_r, Bool.andb_true_r. apply IH.
      * intros gs Hgs. apply L. apply in_app_iff. auto.
      * intros d. rewrite (P t G (flat_of_alt _ _ _ Fx)). intros Hd. apply H. apply in_app_iff. auto.
      * intros g al' u k' ->. inversion Fx.
      * left. exact (flat_of_alt _ _ _ Fx).
    + intros gs Hgs. apply L. apply in_app_iff. auto.
    + intros d Hd. apply H. apply in_app_iff. auto.
    + intros u k' Hu. apply C. right. exact Hu.
Qed.

Lemma declared_typed a fs : declared a fs ->
  (forall gs, In gs (lists fs) -> constraints_taken gs /\ lengths_are_integers gs) -> typed fs = true.
Proof.
  intros D H.
  assert (A : forall gs, In gs (lists fs) -> all_good a gs).
  { intros gs Hin. destruct (H gs Hin). apply D, struct_field_list_iff in Hin as [K L].
    exact (conj K (conj (accepted_nodup _ L) (conj H0 H1))). }
  apply (proj1 (proj2 (typed_parts a)) fs fs []); auto; [apply A; left; reflexivity|].
  intros gs Hin. apply A. right. exact Hin.
Qed.

Lemma declared_casts a fs : declared a fs -> sizes_fields fs = true ->
  (forall gs, In gs (lists fs) -> named gs /\ constraints_taken gs /\ lengths_are_integers gs) ->
  (forall gs id t k, In gs (lists fs) -> In (id, t, k) (f_list gs) -> ~ In id (uses t)) ->
  (forall c S alloc s o s' ev, delivers S ->
     rrun S alloc (struct_cast c fs) s = (o, s', ev) ->
     o <> Stuck /\ forall vs, o = Ok vs -> has_fields fs vs) /\
  (forall c S vs s o s' ch, has_fields fs vs ->
     wrun S (stream_cast c fs vs) s = (o, s', ch) -> o <> Stuck).
Proof.
  intros D HS H NS.
  assert (T : typed fs = true) by (apply (declared_typed a); [exact D|]; intros gs Hin; apply H; exact Hin).
  assert (W : wf fs = true) by (apply (declared_wf a); auto; intros gs Hin; apply H; exact Hin).
  split.
  - intros c S alloc s o s' ev HD R. eapply struct_cast_not_stuck; eauto.
  - eapply accepted_progress; eauto; [apply declared_accepted; exact D|].
    intros gs Hin. apply H. exact Hin.
Qed.
