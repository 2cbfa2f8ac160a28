(** * Comparisons of arrays: proofs *)
From Coq Require Import Lia ZifyBool ZifyNat.
From Verif Require Import Read Write WSpec PropDefs Typing ArrCmp ArrSpec.
From Verif Require Import BytesFacts ReadFacts ReadFinal Narrow FloatFacts.
Local Open Scope list_scope.

(** Flat comparison of the numbers. *)
Fixpoint decide (l m : list val) : ordering :=
  match l, m with
  | [], [] => Equivalent
  | [], _ :: _ => Less
  | _ :: _, [] => Greater
  | x :: l', y :: m' => match three_way x y with Equivalent => decide l' m' | r => r end
  end.

Lemma decide_app l : forall m r s, length l = length m ->
  decide (l ++ r) (m ++ s) = match decide l m with Equivalent => decide r s | x => x end.
Proof.
  induction l as [|x l IH]; intros [|y m] r s L; simpl in *; try discriminate; auto.
  destruct (three_way x y); auto.
Qed.

Lemma numbers_length t : forall a b, ct_ok t a -> ct_ok t b -> length (numbers a) = length (numbers b).
Proof.
  induction t as [s|n t IH|n|w]; intros [] []; cbn; try tauto.
  - intros [<- Ha] [L Hb]. revert l0 L Hb. induction Ha as [|x l Hx Ha IHa]; intros [|y m] L Hb; try discriminate; auto.
    inversion Hb; subst. cbn. rewrite !app_length. erewrite IH; eauto.
  - intros [La Ha] [Lb Hb]. assert (L : length l = length l0) by congruence. clear La Lb. revert l0 L Hb.
    induction Ha as [|x l (z & -> & _) Ha IHa]; intros [|y m] L Hb; try discriminate; auto.
    inversion Hb as [|? ? (z' & -> & _)]; subst. cbn. f_equal. auto.
Qed.

Lemma three_way_decide t : forall a b, ct_ok t a -> ct_ok t b ->
  three_way a b = decide (numbers a) (numbers b).
Proof.
  induction t as [s|n t IH|n|w]; intros [] []; cbn -[three_way]; try tauto.
  - intros _ _. destruct (three_way _ _); auto.
  - intros [<- Ha] [L Hb]. cbn. revert l0 L Hb.
    induction Ha as [|x l Hx Ha IHa]; intros [|y m] L Hb; try discriminate; auto.
    inversion Hb; subst. cbn. rewrite decide_app by (eapply numbers_length; eauto).
    rewrite <- (IH x y) by auto. destruct (three_way x y); auto.
  - intros [La Ha] [Lb Hb]. assert (L : length l = length l0) by congruence. clear La Lb. cbn. revert l0 L Hb.
    induction Ha as [|x l (z & -> & _) Ha IHa]; intros [|y m] L Hb; try discriminate; auto.
    inversion Hb as [|? ? (z' & -> & _)]; subst. cbn -[three_way]. rewrite (IHa m) by auto. auto.
  - intros _ _. destruct (three_way _ _); auto.
Qed.

Definition flat (x : val) : Prop := match x with VZ _ | VF _ _ => True | _ => False end.

Lemma numbers_flat t : forall a, ct_ok t a -> Forall flat (numbers a).
Proof.
  induction t as [s|n t IH|n|w]; intros []; cbn; try tauto; try (intros; repeat constructor; fail).
  - intros [_ Ha]. induction Ha; cbn; auto. apply Forall_app. auto.
  - intros [_ Ha]. induction Ha as [|x l (z & -> & _) Ha IHa]; cbn; auto. constructor; cbn; auto.
Qed.

Lemma less_float w x u y : number_less (VF w x) (VF u y) -> fless (fdec w x) (fdec u y).
Proof. intros H. inversion H. auto. Qed.
Lemma equal_float w x u y : number_equal (VF w x) (VF u y) -> fequal (fdec w x) (fdec u y).
Proof. intros H. inversion H. auto. Qed.

Lemma three_way_less x y : flat x -> flat y -> (three_way x y = Less <-> number_less x y).
Proof.
  destruct x, y; cbn; try tauto; intros _ _.
  - destruct (Z.ltb_spec z z0), (Z.eqb_spec z z0); split; intros H'; try discriminate; try reflexivity;
      try (inversion H'; lia). constructor; lia.
  - split; [discriminate|intros H; inversion H].
  - split; [discriminate|intros H; inversion H].
  - destruct (fltb (fdec w z) (fdec w0 z0)) eqn:E.
    + split; auto. intros _. constructor. apply fltb_iff; auto.
    + split; [destruct (feqb (fdec w z) (fdec w0 z0)), (fltb (fdec w0 z0) (fdec w z)); discriminate|].
      intros H2%less_float. apply fltb_iff in H2. congruence.
Qed.

Lemma three_way_equal x y : flat x -> flat y -> (three_way x y = Equivalent <-> number_equal x y).
Proof.
  destruct x, y; cbn; try tauto; intros _ _; try (split; [discriminate|intros H; inversion H]; fail).
  - destruct (Z.ltb_spec z z0), (Z.eqb_spec z z0); split; intros H'; try discriminate; try reflexivity;
      try (inversion H'; lia); subst; constructor.
  - destruct (fltb (fdec w z) (fdec w0 z0)) eqn:E.
    + split; [discriminate|]. intros H2%equal_float. destruct H2 as [He Hn].
      apply fltb_iff in E. rewrite <- He in E. destruct (fdec w z) as [|[]|]; inversion E; lia.
    + destruct (feqb (fdec w z) (fdec w0 z0)) eqn:F.
      * split; auto. intros _. constructor. apply feqb_iff; auto.
      * split; [destruct (fltb (fdec w0 z0) (fdec w z)); discriminate|].
        intros H2%equal_float. apply feqb_iff in H2. congruence.
Qed.

Lemma three_way_greater x y : flat x -> flat y -> (three_way x y = Greater <-> number_less y x).
Proof.
  destruct x, y; cbn; try tauto; intros _ _; try (split; [discriminate|intros H; inversion H]; fail).
  - destruct (Z.ltb_spec z z0), (Z.eqb_spec z z0); split; intros H'; try discriminate; try reflexivity;
      try (inversion H'; lia). constructor; lia.
  - split.
    + destruct (fltb (fdec w z) (fdec w0 z0)); [discriminate|]. destruct (feqb (fdec w z) (fdec w0 z0)); [discriminate|].
      destruct (fltb (fdec w0 z0) (fdec w z)) eqn:E; [|discriminate]. intros _. constructor. apply fltb_iff; auto.
    + intros H2%less_float. destruct (fltb (fdec w z) (fdec w0 z0)) eqn:E.
      { exfalso. apply fltb_iff in E. pose proof (fless_trans _ _ _ H2 E) as T.
        destruct (fdec w0 z0) as [|[]|]; inversion T; lia. }
      destruct (feqb (fdec w z) (fdec w0 z0)) eqn:F.
      { exfalso. apply feqb_iff in F. destruct F as [F _]. rewrite F in H2.
        destruct (fdec w0 z0) as [|[]|]; inversion H2; lia. }
      apply fltb_iff in H2. rewrite H2. auto.
Qed.

Definition lex (l m : list val) : Prop := exists p q x y s t, l = p ++ x :: s /\ m = q ++ y :: t /\
  Forall2 number_equal p q /\ number_less x y.

Lemma lex_cons x y l m : flat x -> flat y ->
  (lex (x :: l) (y :: m) <-> number_less x y \/ number_equal x y /\ lex l m).
Proof.
  intros Fx Fy. split.
  - intros (p & q & a & b & s & t & E1 & E2 & F & L). inversion F; subst.
    + inversion E1; inversion E2; subst. auto.
    + inversion E1; inversion E2; subst. right. split; auto. exists l0, l', a, b, s, t. auto.
  - intros [L|[E (p & q & a & b & s & t & -> & -> & F & L)]].
    + exists [], [], x, y, l, m. auto.
    + exists (x :: p), (y :: q), a, b, s, t. cbn. auto.
Qed.

Lemma lex_nil_l m : ~ lex [] m.
Proof. intros (p & q & a & b & s & t & E & _). destruct p; discriminate. Qed.
Lemma lex_nil_r l : ~ lex l [].
Proof. intros (p & q & a & b & s & t & _ & E & _). destruct q; discriminate. Qed.

Lemma number_equal_sym x y : number_equal x y -> number_equal y x.
Proof.
  intros H. inversion H; subst; constructor. destruct H0 as [E N]. split; congruence.
Qed.

Lemma decide_spec l : forall m, Forall flat l -> Forall flat m -> length l = length m ->
  (decide l m = Less <-> lex l m) /\ (decide l m = Equivalent <-> Forall2 number_equal l m) /\
  (decide l m = Greater <-> lex m l).
Proof.
  induction l as [|x l IH]; intros [|y m] Fl Fm L; try discriminate.
  - cbn. repeat split; try discriminate; try (intros H; destruct (lex_nil_l _ H)); constructor.
  - inversion Fl; inversion Fm; subst. cbn. injection L as L.
    destruct (IH m) as (I1 & I2 & I3); auto.
    rewrite !lex_cons by auto.
    pose proof (three_way_less x y H1 H5) as T1. pose proof (three_way_equal x y H1 H5) as T2.
    pose proof (three_way_greater x y H1 H5) as T3.
    assert (S : number_equal y x <-> number_equal x y) by (split; apply number_equal_sym).
    assert (C : Forall2 number_equal (x :: l) (y :: m) <-> number_equal x y /\ Forall2 number_equal l m)
      by (split; [intros H; inversion H; auto|intros []; constructor; auto]).
    rewrite C, S, <- T1, <- T2, <- T3. destruct (three_way x y); rewrite ?I1, ?I2, ?I3; intuition discriminate.
Qed.

Lemma arr_spec t a b : ct_ok t a -> ct_ok t b ->
  (arr_cmp ALt b a = true <-> before a b) /\ (arr_cmp AGt b a = true <-> before b a) /\
  (arr_cmp ALte b a = true <-> before a b \/ same_numbers a b).
Proof.
  intros Ha Hb. unfold arr_cmp. rewrite (three_way_decide t) by auto.
  destruct (decide_spec (numbers a) (numbers b)) as (D1 & D2 & D3);
    [eapply numbers_flat; eauto|eapply numbers_flat; eauto|eapply numbers_length; eauto|].
  unfold before, same_numbers. unfold lex in D1, D3. rewrite <- D1, <- D2, <- D3.
  destruct (decide _ _); intuition discriminate.
Qed.

Definition alike (x y : val) : Prop :=
  match x, y with VZ _, VZ _ | VF _ _, VF _ _ => True | _, _ => False end.

Lemma numbers_alike t : forall a b, ct_ok t a -> ct_ok t b -> Forall2 alike (numbers a) (numbers b).
Proof.
  induction t as [s|n t IH|n|w]; intros [] []; cbn; try tauto; try (intros; repeat constructor; fail).
  - intros [<- Ha] [L Hb]. revert l0 L Hb. induction Ha as [|x l Hx Ha IHa]; intros [|y m] L Hb; try discriminate.
    + constructor.
    + inversion Hb; subst. cbn. apply Forall2_app; auto.
  - intros [La Ha] [Lb Hb]. assert (L : length l = length l0) by congruence. clear La Lb. revert l0 L Hb.
    induction Ha as [|x l (z & -> & _) Ha IHa]; intros [|y m] L Hb; try discriminate; [constructor|].
    inversion Hb as [|? ? (z' & -> & _)]; subst. cbn. constructor; cbn; auto.
Qed.

Lemma before_or t a b : ct_ok t a -> ct_ok t b -> ordered a -> ordered b ->
  before a b \/ same_numbers a b \/ before b a.
Proof.
  intros Ha Hb. pose proof (numbers_flat t a Ha) as Fa. pose proof (numbers_flat t b Hb) as Fb.
  pose proof (numbers_length t a b Ha Hb) as L. pose proof (numbers_alike t a b Ha Hb) as K.
  unfold ordered, before, same_numbers.
  destruct (decide_spec _ _ Fa Fb L) as (D1 & D2 & D3). unfold lex in D1, D3. rewrite <- D1, <- D2, <- D3.
  clear D1 D2 D3 Ha Hb Fa Fb L. induction K as [|x y l m Kx K IH]; intros Oa Ob; auto.
  inversion Oa; inversion Ob; subst. cbn -[three_way].
  assert (N : three_way x y <> Unordered).
  { destruct x, y; cbn in *; try tauto.
    - destruct (_ <? _); [discriminate|]. destruct (_ =? _); discriminate.
    - destruct (float_trichotomy (fdec w z) (fdec w0 z0)) as [(T & _)|[(T & _)|(T & _)]]; auto;
        [apply fltb_iff in T|apply feqb_iff in T|apply fltb_iff in T]; rewrite T;
        repeat (match goal with |- context [if ?b then _ else _] => destruct b end); discriminate. }
  destruct (three_way x y); auto. tauto.
Qed.

Lemma before_irrefl t a b : ct_ok t a -> ct_ok t b -> before a b -> ~ before b a /\ ~ same_numbers a b.
Proof.
  intros Ha Hb H. destruct (decide_spec (numbers a) (numbers b)) as (D1 & D2 & D3);
    [eapply numbers_flat; eauto|eapply numbers_flat; eauto|eapply numbers_length; eauto|].
  unfold before, same_numbers in *. unfold lex in D1, D3. rewrite <- D2, <- D3. apply D1 in H. rewrite H.
  split; discriminate.
Qed.

(** Bytes: the number they denote, most significant byte first. *)
Lemma number_cons x l : number Big (x :: l) = x * pow256 (length l) + number Big l.
Proof.
  assert (G : forall l a b, fold_left (fun acc b => 256 * acc + b) l (a + b) =
    a * pow256 (length l) + fold_left (fun acc b => 256 * acc + b) l b).
  { clear. induction l as [|y l IH]; intros a b; cbn [fold_left length].
    - rewrite pow256_0. lia.
    - replace (256 * (a + b) + y) with (256 * a + (256 * b + y)) by lia. rewrite IH.
      rewrite pow256_S. lia. }
  unfold number. cbn [fold_left]. replace (256 * 0 + x) with (x + 0) by lia. apply G.
Qed.

Lemma bytes_decide l : forall m, Forall byte_ok l -> Forall byte_ok m -> length l = length m ->
  decide (map VZ l) (map VZ m) =
    if number Big l <? number Big m then Less else if number Big l =? number Big m then Equivalent else Greater.
Proof.
  induction l as [|x l IH]; intros [|y m] Hl Hm L; try discriminate; auto.
  inversion Hl; inversion Hm; subst. injection L as L. cbn [map decide]. rewrite !number_cons, <- L.
  pose proof (number_bound Big l H2) as Bl. pose proof (number_bound Big m H6) as Bm. rewrite <- L in Bm.
  rewrite IH by auto. cbn [three_way].
  set (P := pow256 (length l)) in *. set (u := number Big l) in *. set (v := number Big m) in *.
  destruct (Z.ltb_spec x y).
  - destruct (Z.ltb_spec (x * P + u) (y * P + v)); auto. nia.
  - destruct (Z.eqb_spec x y).
    + subst y. destruct (Z.ltb_spec u v), (Z.ltb_spec (x * P + u) (x * P + v)); try lia; auto.
      destruct (Z.eqb_spec u v), (Z.eqb_spec (x * P + u) (x * P + v)); try lia; auto.
    + destruct (Z.ltb_spec (x * P + u) (y * P + v)); [nia|].
      destruct (Z.eqb_spec (x * P + u) (y * P + v)); [nia|]. auto.
Qed.

Lemma numbers_ints l : numbers (VSeq (map VZ l)) = map VZ l.
Proof. cbn. induction l; cbn; congruence. Qed.

Lemma bytes_ok n l : length l = n -> Forall byte_ok l -> ct_ok (TArr n (TScalar (SInt 1 false))) (VSeq (map VZ l)).
Proof.
  intros L H. cbn. rewrite map_length. split; auto. apply Forall_map. eapply Forall_impl; [|exact H].
  intros a Ha. unfold byte_ok in Ha. change (pow256 1) with 256. lia.
Qed.

Lemma arr_bytes l m : Forall byte_ok l -> Forall byte_ok m -> length l = length m ->
  (arr_cmp ALt (VSeq (map VZ m)) (VSeq (map VZ l)) = true <-> number Big l < number Big m) /\
  (arr_cmp AGt (VSeq (map VZ m)) (VSeq (map VZ l)) = true <-> number Big l > number Big m) /\
  (arr_cmp ALte (VSeq (map VZ m)) (VSeq (map VZ l)) = true <-> number Big l <= number Big m).
Proof.
  intros Hl Hm L. unfold arr_cmp.
  rewrite (three_way_decide (TArr (length l) (TScalar (SInt 1 false)))) by (apply bytes_ok; auto).
  rewrite !numbers_ints, bytes_decide by auto.
  destruct (Z.ltb_spec (number Big l) (number Big m)), (Z.eqb_spec (number Big l) (number Big m));
    repeat split; try discriminate; lia.
Qed.

Lemma arr_any_spec lits v : arr_any lits v = true <-> exists lit, In lit lits /\ equal_values v lit.
Proof.
  unfold arr_any. rewrite existsb_exists. split; intros (x & H & E); exists x; split; auto; apply cxx_eqb_iff; auto.
Qed.

Lemma read_arr c fs bs vs rest pre id n t m op lit v : wf fs = true -> Forall byte_ok bs ->
  rmem (struct_cast c fs) bs = (Ok vs, rest) ->
  field_at fs vs pre id (FFixed (TArr n t) m) (CFun (arr_cmp op lit)) v -> ct_ok (TArr n t) lit ->
  match op with
  | ALt => before v lit
  | AGt => before lit v
  | ALte => before v lit \/ same_numbers v lit
  end.
Proof.
  intros Hw Hb Hr Hat Hl. pose proof (read_constraints _ _ _ _ _ Hw Hb Hr) as Hs.
  pose proof (sat_at _ _ _ _ _ _ _ Hs Hat) as H.
  destruct Hat as (post & vpre & vpost & -> & -> & L).
  apply struct_cast_correct in Hr; auto. destruct Hr as [Hv _]. unfold valid in Hv.
  eapply valid_at in Hv; eauto. destruct Hv as [Hv _].
  destruct (arr_spec _ v lit Hv Hl) as (A1 & A2 & A3). destruct op; apply A1 || apply A2 || apply A3; exact H.
Qed.
