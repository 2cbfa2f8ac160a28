(** * Facts about the texts and paths of the single header *)
From Coq Require Import Lia.
From Verif Require Import DocTools DocSpec DocFacts AmalgamText AmalgamTextSpec.
Local Open Scope list_scope.
Local Open Scope nat_scope.

(** ** Texts and lines *)

Lemma is_nl_iff a : is_nl a = true <-> a = newline.
Proof. unfold is_nl. rewrite Ascii.eqb_eq. reflexivity. Qed.
Lemma is_nl_refl : is_nl newline = true.
Proof. reflexivity. Qed.
Lemma not_nl a : a <> newline -> is_nl a = false.
Proof. intros H. unfold is_nl. destruct (Ascii.eqb_spec a nl); auto. contradiction. Qed.
Lemma nl_space : is_space newline = true.
Proof. reflexivity. Qed.

Lemma one_cons a l : one_line (a :: l) <-> a <> newline /\ one_line l.
Proof.
  unfold one_line. simpl. split; [intros H; split; [intros ->; tauto|tauto]|intros [H1 H2] [H|H]; auto].
Qed.
Lemma one_app a b : one_line (a ++ b) <-> one_line a /\ one_line b.
Proof. unfold one_line. rewrite in_app_iff. tauto. Qed.

Lemma join_cons l ls : ls <> [] -> join (l :: ls) = l ++ newline :: join ls.
Proof. destruct ls; [congruence|reflexivity]. Qed.

Lemma join_app a b : a <> [] -> b <> [] -> join (a ++ b) = join a ++ newline :: join b.
Proof.
  intros Ha Hb. induction a as [|x a IH]; [congruence|]. destruct a as [|y a].
  - simpl app. rewrite join_cons by auto. reflexivity.
  - rewrite join_cons by discriminate. change ((x :: y :: a) ++ b) with (x :: ((y :: a) ++ b)).
    rewrite join_cons by discriminate. rewrite IH by discriminate. rewrite <- app_assoc. reflexivity.
Qed.

Lemma lines_some t : lines t <> [].
Proof. destruct t as [|a t]; simpl; [discriminate|]. destruct (is_nl a); [discriminate|]. destruct (lines t); discriminate. Qed.

Lemma lines_text t : text_lines t (lines t).
Proof.
  split; [apply lines_some|]. induction t as [|a t [IH1 IH2]]; simpl; [repeat constructor; intros []|].
  pose proof (lines_some t) as N. destruct (is_nl a) eqn:E.
  - apply is_nl_iff in E. subst a. split; [constructor; [intros []|auto]|].
    rewrite join_cons by auto. simpl. congruence.
  - assert (Na : a <> newline) by (intros ->; discriminate).
    destruct (lines t) as [|l ls]; [congruence|]. inversion IH1; subst. split.
    + constructor; auto. apply one_cons. auto.
    + destruct ls; reflexivity.
Qed.

Lemma lines_app l t : one_line l -> lines (l ++ newline :: t) = l :: lines t.
Proof.
  induction l as [|a l IH]; intros H; simpl; auto. apply one_cons in H as [Na H].
  rewrite (not_nl a Na), IH by auto. reflexivity.
Qed.
Lemma lines_one l : one_line l -> lines l = [l].
Proof.
  induction l as [|a l IH]; intros H; simpl; auto. apply one_cons in H as [Na H].
  rewrite (not_nl a Na), IH by auto. reflexivity.
Qed.
Lemma lines_join ls : ls <> [] -> Forall one_line ls -> lines (join ls) = ls.
Proof.
  intros N H. induction H as [|l ls H1 H2 IH]; [congruence|]. destruct ls as [|l' ls].
  - apply lines_one. auto.
  - rewrite join_cons, lines_app by (auto; discriminate). rewrite IH by discriminate. auto.
Qed.
Lemma text_lines_eq t ls : text_lines t ls <-> ls = lines t.
Proof.
  split; [intros (N & H & ->); symmetry; apply lines_join; auto|intros ->; apply lines_text].
Qed.

(** ** Blank lines *)

Definition vis (l : str) : bool := negb (forallb is_space l).

Lemma blank_blanks l : AmalgamTextSpec.blank l <-> blanks l.
Proof. unfold AmalgamTextSpec.blank, blanks. split; apply Forall_impl; intros a; apply space_iff. Qed.
Lemma forallb_blanks l : forallb is_space l = true <-> blanks l.
Proof. unfold blanks. rewrite forallb_forall, Forall_forall. reflexivity. Qed.
Lemma vis_false l : vis l = false <-> blanks l.
Proof. unfold vis. rewrite negb_false_iff. apply forallb_blanks. Qed.
Lemma vis_iff l : vis l = true <-> ~ AmalgamTextSpec.blank l.
Proof.
  rewrite blank_blanks, <- vis_false. destruct (vis l); intuition congruence.
Qed.
Lemma vis_split l : vis l = true -> exists w a r, blanks w /\ is_space a = false /\ l = w ++ a :: r /\ drop_space l = a :: r.
Proof.
  intros H. destruct (drop_split l) as (w & Hw & E & Hd). destruct (drop_space l) as [|a r] eqn:D.
  - exfalso. rewrite app_nil_r in E. subst l. apply vis_false in Hw. congruence.
  - exists w, a, r. auto.
Qed.
Lemma vis_app a b : vis (a ++ b) = vis a || vis b.
Proof. unfold vis. rewrite forallb_app. destruct (forallb is_space a); reflexivity. Qed.

Lemma drop_app_blanks w l : blanks w -> drop_space (w ++ l) = drop_space l.
Proof. induction 1 as [|a w Ha _ IH]; simpl; auto. rewrite Ha. auto. Qed.
Lemma drop_all w : blanks w -> drop_space w = [].
Proof. intros H. rewrite <- (app_nil_r w), drop_app_blanks by auto. reflexivity. Qed.

Lemma blanks_join bs : Forall blanks bs -> blanks (join bs).
Proof.
  induction 1 as [|b bs H _ IH]; [constructor|]. destruct bs; [simpl; auto|].
  rewrite join_cons by discriminate. apply Forall_app. split; [exact H|constructor; [exact nl_space|exact IH]].
Qed.

(** The first line that is not blank. *)
Lemma first_vis ls : Forall blanks ls \/ exists bs x more, ls = bs ++ x :: more /\ Forall blanks bs /\ vis x = true.
Proof.
  induction ls as [|l ls IH]; [left; constructor|]. destruct (vis l) eqn:V.
  - right. exists [], l, ls. auto.
  - apply vis_false in V. destruct IH as [IH|(bs & x & more & -> & Hb & Hx)]; [left; auto|].
    right. exists (l :: bs), x, more. auto.
Qed.

(** ** The expressions *)

Definition cont (k : str) : Prop := match k with [] => True | a :: _ => a = newline end.

Record scans (head : str -> option (str * str)) : Prop := {
  sc_blank : forall w l, blanks w -> head (w ++ l) = head l;
  sc_nil : head [] = None;
  sc_part : forall l n r, head l = Some (n, r) -> exists u, u <> [] /\ l = u ++ r;
  sc_line : forall x k, one_line x -> vis x = true -> ~ runs_on x -> cont k ->
    head (x ++ k) = match head x with Some (n, r) => Some (n, r ++ k) | None => None end }.

Lemma after_line p : one_line p -> forall y k, one_line y -> cont k ->
  after p (y ++ k) = match after p y with Some r => Some (r ++ k) | None => None end.
Proof.
  induction p as [|a p IH]; intros Hp y k Hy Hk; simpl; [destruct y; auto|].
  apply one_cons in Hp as [Na Hp]. destruct y as [|b y]; simpl.
  - destruct k as [|c k]; simpl in *; auto. subst c. destruct (Ascii.eqb_spec a newline); [contradiction|auto].
  - apply one_cons in Hy as [Nb Hy]. destruct (Ascii.eqb a b); auto.
Qed.

Lemma include_one : one_line (chars "#include").
Proof. unfold one_line. simpl. intuition discriminate. Qed.

Lemma span_app p l : fst (span p l) ++ snd (span p l) = l.
Proof. induction l as [|a l IH]; simpl; auto. destruct (p a); auto. destruct (span p l); simpl in *. congruence. Qed.
Lemma span_fst p l : Forall (fun a => p a = true) (fst (span p l)).
Proof. induction l as [|a l IH]; simpl; auto. destruct (p a) eqn:E; simpl; auto. destruct (span p l); simpl in *. auto. Qed.
Lemma span_snd p l : match snd (span p l) with [] => True | a :: _ => p a = false end.
Proof. induction l as [|a l IH]; simpl; auto. destruct (p a) eqn:E; simpl; auto. destruct (span p l); simpl in *. auto. Qed.
Lemma span_ext p a x k : p x = false -> Forall (fun y => p y = true) a -> span p (a ++ x :: k) = (a, x :: k).
Proof. intros Hx. induction 1 as [|y a Hy _ IH]; simpl; [rewrite Hx; auto|]. rewrite Hy, IH. auto. Qed.
Lemma span_end p a : Forall (fun y => p y = true) a -> span p a = (a, []).
Proof. induction 1 as [|y a Hy _ IH]; simpl; auto. rewrite Hy, IH. auto. Qed.

(** Up to the quote or the bracket. *)
Definition opening (l : str) : str :=
  match after (chars "#include") (drop_space l) with Some r => drop_space r | None => [] end.

Lemma opening_blank w l : blanks w -> opening (w ++ l) = opening l.
Proof. intros H. unfold opening. rewrite drop_app_blanks by auto. reflexivity. Qed.

Lemma opening_part l q r : opening l = q :: r -> exists u, u <> [] /\ l = u ++ q :: r.
Proof.
  unfold opening. destruct (after _ (drop_space l)) as [r1|] eqn:E; [|discriminate]. intros D.
  apply after_iff in E. destruct (drop_split l) as (w & _ & El & _).
  destruct (drop_split r1) as (w2 & _ & Er & _). rewrite D in Er.
  exists (w ++ chars "#include" ++ w2). split; [destruct w; discriminate|].
  rewrite El, E, Er, <- !app_assoc. reflexivity.
Qed.

Lemma opening_line x k : one_line x -> vis x = true -> ~ runs_on x -> cont k ->
  opening (x ++ k) = match opening x with [] => [] | q :: r => q :: r ++ k end.
Proof.
  intros H1 V R K. destruct (vis_split x V) as (w & a & r & Hw & Ha & -> & D). unfold opening.
  rewrite <- app_assoc, D, (drop_app_blanks w) by auto. simpl app at 1.
  replace (drop_space (a :: r ++ k)) with ((a :: r) ++ k) by (simpl; rewrite Ha; reflexivity).
  apply one_app in H1 as [_ H1]. rewrite (after_line _ include_one) by auto.
  destruct (after _ (a :: r)) as [y|] eqn:E; auto. apply after_iff in E.
  destruct (drop_split y) as (w2 & Hw2 & Ey & Hd). destruct (drop_space y) as [|q z] eqn:Dy.
  - exfalso. apply R. exists w, w2, []. rewrite !blank_blanks. repeat split; auto. rewrite E, Ey. reflexivity.
  - rewrite Ey, <- app_assoc, drop_app_blanks by auto. simpl. rewrite Hd. reflexivity.
Qed.

Lemma opening_runs x u : opening x = dquote :: u -> ~ In dquote u -> runs_on x.
Proof.
  unfold opening. destruct (after _ (drop_space x)) as [y|] eqn:E; [|discriminate]. intros D N.
  apply after_iff in E. destruct (drop_split x) as (w & Hw & Ex & _).
  destruct (drop_split y) as (w2 & Hw2 & Ey & _). rewrite D in Ey.
  exists w, w2, (dquote :: u). rewrite !blank_blanks. repeat split; auto.
  - rewrite Ex, E, Ey. reflexivity.
  - right. eauto.
Qed.

Definition tidy (l : str) : bool :=
  match after (chars "#include") (drop_space l) with
  | None => true
  | Some r => match drop_space r with
              | [] => false
              | q :: u => if Ascii.eqb q quote then existsb (Ascii.eqb quote) u else true
              end
  end.
Lemma tidy_ok l : tidy l = true -> ~ runs_on l.
Proof.
  intros T (w1 & w2 & r & H1 & H2 & -> & H). revert T. unfold tidy. apply blank_blanks in H1, H2.
  rewrite drop_app_blanks by auto.
  replace (drop_space (s "#include" ++ w2 ++ r)) with (chars "#include" ++ w2 ++ r) by reflexivity.
  rewrite (proj2 (after_iff _ _ (w2 ++ r)) eq_refl), drop_app_blanks by auto.
  destruct H as [->|(u & -> & N)]; [discriminate|]. simpl. rewrite existsb_exists.
  intros (x & I & E). apply Ascii.eqb_eq in E. subst x. apply N, I.
Qed.

Lemma inc_head_eq l : inc_head l =
  match opening l with
  | q :: r' =>
      if Ascii.eqb q quote
      then match span (fun a => negb (Ascii.eqb a quote)) r' with
           | ((_ :: _) as name, _ :: rest) => Some (name, rest)
           | _ => None
           end
      else None
  | [] => None
  end.
Proof. unfold inc_head, opening. destruct (after _ _); reflexivity. Qed.
Lemma std_head_eq l : std_head l =
  match opening l with
  | q :: r' =>
      if Ascii.eqb q "<"%char
      then match span is_word r' with
           | ((_ :: _) as name, c :: rest) => if Ascii.eqb c ">"%char then Some (name, rest) else None
           | _ => None
           end
      else None
  | [] => None
  end.
Proof. unfold std_head, opening. destruct (after _ _); reflexivity. Qed.

Definition nq (a : ascii) : bool := negb (Ascii.eqb a quote).
Lemma nq_false a : nq a = false <-> a = dquote.
Proof. unfold nq. rewrite negb_false_iff, Ascii.eqb_eq. reflexivity. Qed.

Lemma inc_scans : scans inc_head.
Proof.
  split.
  - intros w l H. rewrite !inc_head_eq, opening_blank by auto. reflexivity.
  - reflexivity.
  - intros l n r. rewrite inc_head_eq. destruct (opening l) as [|q y] eqn:O; [discriminate|].
    apply opening_part in O as (u & Nu & ->). destruct (Ascii.eqb q quote); [|discriminate].
    pose proof (span_app nq y) as A. fold nq. destruct (span nq y) as [[|a name] [|c rest]]; try discriminate.
    intros H. inversion H; subst n r. simpl in A. exists (u ++ q :: (a :: name) ++ [c]).
    split; [destruct u; discriminate|]. rewrite <- A, <- app_assoc. simpl. rewrite <- app_assoc. reflexivity.
  - intros x k H1 V R K. rewrite !inc_head_eq, opening_line by auto.
    destruct (opening x) as [|q y] eqn:O; auto. destruct (Ascii.eqb_spec q quote) as [->|]; auto. fold nq.
    pose proof (span_app nq y) as A. pose proof (span_fst nq y) as F. pose proof (span_snd nq y) as S.
    destruct (span nq y) as [name rest]. cbn [fst snd] in *. destruct rest as [|c rest].
    + exfalso. apply R. apply (opening_runs x y); auto. rewrite <- A, app_nil_r. intros I.
      rewrite Forall_forall in F. specialize (F _ I). discriminate.
    + rewrite <- A, <- app_assoc. simpl. rewrite (span_ext nq name c) by auto. destruct name; reflexivity.
Qed.

Lemma std_scans : scans std_head.
Proof.
  split.
  - intros w l H. rewrite !std_head_eq, opening_blank by auto. reflexivity.
  - reflexivity.
  - intros l n r. rewrite std_head_eq. destruct (opening l) as [|q y] eqn:O; [discriminate|].
    apply opening_part in O as (u & Nu & ->). destruct (Ascii.eqb q "<"); [|discriminate].
    pose proof (span_app is_word y) as A. destruct (span is_word y) as [[|a name] [|c rest]]; try discriminate.
    destruct (Ascii.eqb c ">"); [|discriminate].
    intros H. inversion H; subst n r. simpl in A. exists (u ++ q :: (a :: name) ++ [c]).
    split; [destruct u; discriminate|]. rewrite <- A, <- app_assoc. simpl. rewrite <- app_assoc. reflexivity.
  - intros x k H1 V R K. rewrite !std_head_eq, opening_line by auto.
    destruct (opening x) as [|q y] eqn:O; auto. destruct (Ascii.eqb_spec q "<"%char) as [->|]; auto.
    pose proof (span_app is_word y) as A. pose proof (span_fst is_word y) as F. pose proof (span_snd is_word y) as S.
    destruct (span is_word y) as [name rest]. simpl in *. destruct rest as [|c rest].
    + rewrite app_nil_r in A. subst y. destruct k as [|b k]; simpl in K.
      * rewrite app_nil_r, (span_end is_word name) by auto. destruct name; reflexivity.
      * subst b. rewrite (span_ext is_word name newline) by auto. destruct name; reflexivity.
    + rewrite <- A, <- app_assoc. simpl. rewrite (span_ext is_word name c) by auto.
      destruct name; auto. destruct (Ascii.eqb c ">"); reflexivity.
Qed.

(** ** What [re.sub] leaves *)

Lemma to_end_none a r : blanks a -> one_line a -> match r with [] => False | b :: _ => is_space b = false end ->
  to_end (a ++ r) = None.
Proof.
  intros Ha Ho Hr. induction Ha as [|b a Hb _ IH]; simpl.
  - destruct r; [tauto|]. simpl. rewrite Hr. auto.
  - apply one_cons in Ho as [Nb Ho]. rewrite Hb, IH, (not_nl b Nb) by auto. auto.
Qed.
Lemma to_end_vis y k : one_line y -> vis y = true -> to_end (y ++ k) = None.
Proof.
  intros H V. destruct (vis_split y V) as (w & a & r & Hw & Ha & -> & _). apply one_app in H as [H _].
  rewrite <- app_assoc. apply to_end_none; auto.
Qed.
Lemma to_end_all w : blanks w -> to_end w = Some [].
Proof. induction 1 as [|a w Ha _ IH]; simpl; auto. rewrite Ha, IH. auto. Qed.
Lemma to_end_last w y : blanks w -> to_end y = None -> to_end (w ++ newline :: y) = Some (newline :: y).
Proof.
  intros Hw Hy. induction Hw as [|a w Ha _ IH]; simpl; [rewrite Hy; reflexivity|]. rewrite Ha, IH. auto.
Qed.

Lemma to_end_le t : forall z, to_end t = Some z -> length z <= length t.
Proof.
  induction t as [|a t IHt]; intros z; simpl; [intros Q; inversion Q; auto|].
  destruct (is_space a); [|discriminate]. destruct (to_end t) as [y|].
  - intros Q; inversion Q; subst; specialize (IHt _ eq_refl); lia.
  - destruct (is_nl a); [|discriminate]. intros Q; inversion Q; subst. simpl. lia.
Qed.

Section Sub.
Variable head : str -> option (str * str).
Hypothesis HS : scans head.

Lemma sub_mid x k : one_line x -> sub head 0 false (x ++ k) = x ++ sub head 0 false k.
Proof using Type.
  induction x as [|a x IH]; intros H; simpl; auto. apply one_cons in H as [Na H].
  rewrite (not_nl a Na), IH by auto. auto.
Qed.

Lemma sub_skip u : forall b k, sub head (length u) b (u ++ k) =
  sub head 0 (match u with [] => b | _ => is_nl (last u newline) end) k.
Proof using Type.
  induction u as [|a u IH]; intros b k; simpl; auto. rewrite IH. destruct u; reflexivity.
Qed.

Definition hit (l : str) : bool := match on_line head l with Some _ => true | None => false end.

Lemma no_match l ls : here head (join (l :: ls)) = 0 -> one_line l ->
  sub head 0 true (join (l :: ls)) =
  match ls with [] => l | _ => l ++ newline :: sub head 0 true (join ls) end.
Proof using Type.
  intros H O. destruct ls as [|l2 ls].
  - change (join [l]) with l in *. destruct l as [|a l]; auto. cbn [sub]. rewrite H.
    apply one_cons in O as [Na O]. rewrite (not_nl a Na). f_equal.
    rewrite <- (app_nil_r l) at 1. rewrite sub_mid by auto. simpl. apply app_nil_r.
  - rewrite join_cons in * by discriminate. destruct l as [|a l]; simpl app in *; cbn [sub]; rewrite H; auto.
    apply one_cons in O as [Na O]. rewrite (not_nl a Na), sub_mid by auto. reflexivity.
Qed.

Lemma match_at u rest : u <> [] -> here head (u ++ rest) = length u ->
  sub head 0 true (u ++ rest) = " "%char :: sub head 0 (is_nl (last u newline)) rest.
Proof using Type.
  destruct u as [|a u]; [congruence|]. intros _ H. simpl app in *. cbn [sub]. rewrite H. simpl length.
  cbn iota. f_equal. rewrite sub_skip. destruct u; reflexivity.
Qed.

(** Where it matches: blank lines, the include, blank lines. *)
Lemma here_hit ls : ls <> [] -> Forall one_line ls -> Forall (fun l => ~ runs_on l) ls ->
  here head (join ls) <> 0 ->
  exists bs x bs' rest, ls = bs ++ x :: bs' ++ rest /\ Forall blanks bs /\ Forall blanks bs' /\ hit x = true /\
    (rest = [] \/ exists y ls2, rest = y :: ls2 /\ vis y = true).
Proof using HS.
  intros N O R H. destruct (first_vis ls) as [B|(bs & x & more & -> & Hb & Hx)].
  - exfalso. apply H. unfold here. rewrite <- (app_nil_r (join ls)), (sc_blank _ HS), (sc_nil _ HS) by auto using blanks_join. auto.
  - assert (Hf : exists bs' rest, more = bs' ++ rest /\ Forall blanks bs' /\ (rest = [] \/ exists y ls2, rest = y :: ls2 /\ vis y = true)).
    { destruct (first_vis more) as [B|(bs' & y & ls2 & -> & Hb' & Hy)].
      - exists more, []. rewrite app_nil_r. auto.
      - exists bs', (y :: ls2). repeat split; auto. right. eauto. }
    destruct Hf as (bs' & rest & -> & Hb' & Hr). exists bs, x, bs', rest. repeat split; auto.
    apply Forall_app in O as [_ O]. inversion O as [|? ? Ox Om]; subst.
    apply Forall_app in R as [_ R]. inversion R as [|? ? Rx Rm]; subst.
    assert (E : exists W k, blanks W /\ cont k /\ join (bs ++ x :: bs' ++ rest) = W ++ x ++ k).
    { assert (Ek : exists k, cont k /\ join (x :: bs' ++ rest) = x ++ k).
      { destruct (bs' ++ rest) as [|m ms]; [exists []; split; [exact I|simpl; rewrite app_nil_r; auto]|].
        eexists (newline :: _). split; [reflexivity|]. rewrite join_cons by discriminate. reflexivity. }
      destruct Ek as (k & Ck & Ek). destruct bs as [|b bs]; [exists [], k; repeat split; auto; constructor|].
      exists (join (b :: bs) ++ [newline]), k. rewrite join_app, Ek by discriminate.
      repeat split; auto; [apply Forall_app; split; [apply blanks_join; auto|repeat constructor]|].
      rewrite <- app_assoc. reflexivity. }
    destruct E as (W & k & HW & Ck & E). rewrite E in H. unfold here in H.
    rewrite (sc_blank _ HS), (sc_line _ HS) in H by auto. unfold hit, on_line.
    destruct (head x) as [[n r]|] eqn:Hh; [|congruence].
    destruct (forallb is_space r) eqn:F; auto. exfalso. apply H.
    destruct (sc_part _ HS _ _ _ Hh) as (u & _ & ->). apply one_app in Ox as [_ Or].
    rewrite to_end_vis; auto. unfold vis. rewrite F. auto.
Qed.

Lemma hit_here bs x more : Forall blanks bs -> Forall one_line (x :: more) -> ~ runs_on x -> vis x = true -> hit x = true ->
  exists r n, head x = Some (n, r) /\ blanks r /\
  here head (join (bs ++ x :: more)) =
  length (join (bs ++ x :: more)) -
  length (match to_end (match more with [] => r | _ => r ++ newline :: join more end) with Some z => z | None => join (bs ++ x :: more) end).
Proof using HS.
  intros Hb O R V H. inversion O as [|? ? Ox Om]; subst. unfold hit, on_line in H.
  destruct (head x) as [[n r]|] eqn:Hh; [|discriminate]. destruct (forallb is_space r) eqn:F; [|discriminate].
  apply forallb_blanks in F. exists r, n. repeat split; auto. unfold here.
  assert (E : head (join (bs ++ x :: more)) = Some (n, match more with [] => r | _ => r ++ newline :: join more end)).
  { assert (E1 : head (join (x :: more)) = Some (n, match more with [] => r | _ => r ++ newline :: join more end)).
    { destruct more as [|m ms]; [exact Hh|]. rewrite join_cons by discriminate.
      rewrite (sc_line _ HS), Hh by (auto; reflexivity). reflexivity. }
    destruct bs as [|b bs]; auto. rewrite join_app by discriminate.
    change (newline :: join (x :: more)) with ([newline] ++ join (x :: more)). rewrite app_assoc, (sc_blank _ HS); auto.
    apply Forall_app; split; [apply blanks_join; auto|repeat constructor]. }
  rewrite E. destruct (to_end _); lia.
Qed.

Lemma runs_vis x : hit x = true -> vis x = true.
Proof using HS.
  unfold hit, on_line. destruct (head x) as [[n r]|] eqn:E; [|discriminate]. intros _.
  destruct (vis x) eqn:V; auto. apply vis_false in V.
  rewrite <- (app_nil_r x), (sc_blank _ HS), (sc_nil _ HS) in E by auto. discriminate.
Qed.

Definition same_vis (ls ls' : list str) : Prop :=
  ls' <> [] /\ Forall one_line ls' /\
  filter vis ls' = filter (fun l => vis l && negb (hit l)) ls /\
  (forall l, In l ls' -> In l ls \/ blanks l) /\
  (blanks (List.hd [] ls) -> blanks (List.hd [] ls')).

Lemma filter_blanks {p : str -> bool} bs : Forall blanks bs -> filter (fun l => vis l && p l) bs = [].
Proof using Type. induction 1 as [|b bs H _ IH]; simpl; auto. apply vis_false in H. rewrite H. auto. Qed.

Lemma sub_lines : forall m ls, length ls <= m -> ls <> [] -> Forall one_line ls -> Forall (fun l => ~ runs_on l) ls ->
  exists ls', sub head 0 true (join ls) = join ls' /\ same_vis ls ls'.
Proof using HS.
  induction m as [|m IH]; intros ls Hm N O R; [destruct ls; [congruence|simpl in Hm; lia]|].
  destruct (Nat.eq_dec (here head (join ls)) 0) as [Z|NZ].
  - destruct ls as [|l ls]; [congruence|]. inversion O as [|? ? Ol Os]; subst. inversion R as [|? ? Rl Rs]; subst.
    assert (NH : vis l && negb (hit l) = vis l).
    { destruct (vis l) eqn:V; auto. destruct (hit l) eqn:Hh; auto. exfalso.
      destruct (hit_here [] l ls (Forall_nil _) O Rl V Hh) as (r & n & E & Br & Hq). simpl app in Hq. rewrite Z in Hq.
      destruct (sc_part _ HS _ _ _ E) as (u & Nu & El).
      assert (HL : forall z, to_end (match ls with [] => r | _ => r ++ newline :: join ls end) = Some z ->
                   length z <= length (match ls with [] => r | _ => r ++ newline :: join ls end)).
      { intros z. apply to_end_le. }
      assert (HT : to_end (match ls with [] => r | _ => r ++ newline :: join ls end) <> None).
      { destruct ls as [|l2 ls]; [rewrite to_end_all by auto; discriminate|].
        destruct (first_vis (l2 :: ls)) as [B|(bs & x & more & E2 & Hb & Hx)].
        - rewrite to_end_all; [discriminate|]. apply Forall_app; split; auto. constructor; [auto|apply blanks_join; auto].
        - rewrite E2 in Os |- *. apply Forall_app in Os as [_ Os]. inversion Os; subst.
          assert (EV : to_end (join (x :: more)) = None).
          { destruct more; [simpl; rewrite <- (app_nil_r x); apply to_end_vis; auto|].
            rewrite join_cons by discriminate. apply to_end_vis; auto. }
          destruct bs as [|b bs].
          + simpl app. rewrite to_end_last by auto. discriminate.
          + rewrite join_app by discriminate.
            replace (r ++ newline :: join (b :: bs) ++ newline :: join (x :: more))
              with ((r ++ newline :: join (b :: bs)) ++ newline :: join (x :: more)) by (rewrite <- app_assoc; reflexivity).
            rewrite to_end_last; [discriminate| |auto]. apply Forall_app; split; auto. constructor; [auto|apply blanks_join; auto]. }
      destruct (to_end _) as [z|]; [|congruence]. specialize (HL z eq_refl).
      assert (length u > 0) by (destruct u; [congruence|simpl; lia]).
      destruct ls as [|l2 ls]; [simpl in Hq; rewrite El in Hq; rewrite app_length in Hq; lia|].
      rewrite join_cons in Hq by discriminate. rewrite El, !app_length in Hq. rewrite app_length in HL. lia. }
    rewrite no_match by auto. destruct ls as [|l2 ls].
    + exists [l]. split; auto. repeat split; auto; try discriminate; [simpl; rewrite NH; auto].
    + destruct (IH (l2 :: ls)) as (ls' & E & N' & O' & F & I & Hh); auto; [simpl in *; lia|discriminate|].
      exists (l :: ls'). rewrite E, join_cons by auto. split; auto. repeat split; auto; try discriminate.
      * cbn [filter]. rewrite NH. cbn [filter] in F. rewrite F. destruct (vis l); auto.
      * intros x [->|Hx]; [left; left; auto|]. destruct (I x Hx); auto. left; right; auto.
  - destruct (here_hit ls N O R NZ) as (bs & x & bs' & rest & E & Hb & Hb' & Hx & Hr). subst ls.
    pose proof (runs_vis x Hx) as Vx.
    apply Forall_app in O as [Ob O]. apply Forall_app in R as [Rb R].
    inversion R as [|? ? Rx Rm]; subst. inversion O as [|? ? Ox Om]; subst.
    destruct (hit_here bs x (bs' ++ rest) Hb O Rx Vx Hx) as (r & n & Eh & Br & Hh).
    destruct (sc_part _ HS _ _ _ Eh) as (u & Nu & Ex).
    assert (Hhd : blanks (List.hd [] (bs ++ x :: bs' ++ rest)) -> bs <> []).
    { intros B ->. simpl in B. apply vis_false in B. congruence. }
    assert (FE : forall rest', filter (fun l => vis l && negb (hit l)) (bs ++ x :: bs' ++ rest') =
                 filter (fun l => vis l && negb (hit l)) rest').
    { intros rest'. rewrite filter_app, filter_blanks by auto. simpl. rewrite Hx, andb_false_r, filter_app, filter_blanks by auto. auto. }
    assert (SP : blanks [" "%char]) by (repeat constructor).
    assert (SO : one_line [" "%char]) by (intros [Q|[]]; discriminate).
    destruct Hr as [->|(y & ls2 & -> & Vy)].
    + rewrite app_nil_r in *. exists [[" "%char]].
      assert (T : to_end (match bs' with [] => r | _ => r ++ newline :: join bs' end) = Some []).
      { apply to_end_all. destruct bs'; auto. apply Forall_app; split; auto. constructor; [auto|apply blanks_join; auto]. }
      rewrite T in Hh. simpl length in Hh. rewrite Nat.sub_0_r in Hh.
      split.
      * rewrite <- (app_nil_r (join (bs ++ x :: bs'))). rewrite match_at; [reflexivity| |rewrite app_nil_r; auto].
        intros Q. apply NZ. etransitivity; [exact Hh|]. exact (f_equal (@List.length ascii) Q).
      * specialize (FE []). rewrite !app_nil_r in FE.
        refine (conj _ (conj _ (conj _ (conj _ _)))); [discriminate|auto|rewrite FE; reflexivity|intros l [<-|[]]; auto|intros _; auto].
    + assert (Oy : one_line y /\ Forall one_line ls2).
      { apply Forall_app in Om as [_ Om]. inversion Om; auto. }
      assert (Rr : ~ runs_on y /\ Forall (fun l => ~ runs_on l) ls2).
      { apply Forall_app in Rm as [_ Rm]. inversion Rm; auto. }
      assert (EV : to_end (join (y :: ls2)) = None).
      { destruct ls2; [simpl; rewrite <- (app_nil_r y); apply to_end_vis; tauto|].
        rewrite join_cons by discriminate. apply to_end_vis; tauto. }
      set (u0 := join (bs ++ x :: bs')).
      assert (ET : join (bs ++ x :: bs' ++ y :: ls2) = u0 ++ newline :: join (y :: ls2)).
      { unfold u0. rewrite <- join_app by (try discriminate; destruct bs; discriminate).
        rewrite <- app_assoc. reflexivity. }
      assert (Nu0 : u0 <> []).
      { unfold u0. intros Q. assert (Z : join (x :: bs') = []).
        { destruct bs as [|b0 bs]; auto. rewrite join_app in Q by discriminate. destruct (join (b0 :: bs)); discriminate. }
        destruct bs'; [simpl in Z; rewrite Z in Vx; discriminate Vx|]. rewrite join_cons in Z by discriminate. destruct x; discriminate. }
      assert (T : to_end (match bs' ++ y :: ls2 with [] => r | _ => r ++ newline :: join (bs' ++ y :: ls2) end) = Some (newline :: join (y :: ls2))).
      { destruct bs' as [|b bs'].
        - simpl app. apply to_end_last; auto.
        - rewrite join_app by discriminate. cbn [app].
          replace (r ++ newline :: join (b :: bs') ++ newline :: join (y :: ls2))
              with ((r ++ newline :: join (b :: bs')) ++ newline :: join (y :: ls2)) by (rewrite <- app_assoc; reflexivity).
          apply to_end_last; auto. apply Forall_app; split; auto. constructor; [auto|apply blanks_join; auto]. }
      rewrite T in Hh.
      assert (Hu : here head (u0 ++ newline :: join (y :: ls2)) = length u0).
      { rewrite <- ET. etransitivity; [exact Hh|]. etransitivity; [|exact (Nat.add_sub (length u0) (length (newline :: join (y :: ls2))))].
        rewrite <- app_length, <- ET. reflexivity. }
      rewrite ET, match_at by auto.
      destruct (is_nl (last u0 newline)) eqn:L.
      * assert (Nb : bs' <> []).
        { intros ->. assert (Z : exists v, u0 = v ++ x).
          { unfold u0. destruct bs; [exists []; auto|]. rewrite join_app by discriminate.
            eexists (_ ++ [newline]). rewrite <- app_assoc. reflexivity. }
          destruct Z as (v & Z). apply is_nl_iff in L. rewrite Z in L.
          destruct (@exists_last _ x) as (x' & c & Ec); [intros Q; rewrite Q in Vx; discriminate Vx|].
          rewrite Ec, app_assoc, last_last in L. subst c. rewrite Ec in Ox. apply one_app in Ox as [_ Ox]. apply Ox. left; auto. }
        change (newline :: join (y :: ls2)) with (join ([] :: y :: ls2)).
        destruct (IH ([] :: y :: ls2)) as (ls' & E & N' & O' & F & I & H0).
        { rewrite app_length in Hm. simpl in Hm. rewrite app_length in Hm. destruct bs'; [congruence|]. simpl in *. lia. }
        { discriminate. }
        { constructor; [intros []|]. constructor; tauto. }
        { constructor; [|constructor; tauto]. intros (w1 & w2 & q & _ & _ & Q & _). destruct w1; discriminate. }
        destruct ls' as [|h ls']; [congruence|]. specialize (H0 (Forall_nil _)). simpl in H0.
        exists ((" "%char :: h) :: ls'). rewrite E. split; [destruct ls'; reflexivity|]. inversion O'; subst.
        refine (conj _ (conj _ (conj _ (conj _ _)))); [discriminate| | | |].
        -- constructor; auto. apply one_cons. split; [discriminate|auto].
        -- rewrite FE. assert (Q : vis h = false) by (apply vis_false; auto).
           assert (Q2 : vis (" "%char :: h) = false) by (apply vis_false; constructor; auto).
           cbn [filter] in F |- *. rewrite Q in F. rewrite Q2. exact F.
        -- intros l [<-|Hl]; [right; constructor; auto|]. destruct (I l (or_intror Hl)) as [[<-|Hi]|Hi]; auto; [right; constructor|].
           left. apply in_or_app. right. right. apply in_or_app. auto.
        -- intros _. simpl. constructor; auto.
      * destruct (IH (y :: ls2)) as (ls' & E & N' & O' & F & I & H0).
        { rewrite app_length in Hm. simpl in Hm. rewrite app_length in Hm. simpl in *. lia. }
        { discriminate. }
        { constructor; tauto. }
        { constructor; tauto. }
        exists ([" "%char] :: ls'). cbn [sub]. rewrite is_nl_refl, E, join_cons by auto. split; auto.
        refine (conj _ (conj _ (conj _ (conj _ _)))); [discriminate|auto| | |intros _; auto].
        -- rewrite FE. exact F.
        -- intros l [<-|Hl]; auto. destruct (I l Hl) as [Hi|Hi]; auto.
           left. apply in_or_app. right. right. apply in_or_app. auto.
Qed.
End Sub.
