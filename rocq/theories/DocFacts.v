(** * Facts about the checks of the documentation *)
From Coq Require Import Lia ZifyBool ZifyNat.
From Verif Require Import DocTools DocSpec.
Open Scope list_scope.

(** ** Characters and strings *)

Lemma space_iff a : is_space a = true <-> blank_char a.
Proof. unfold is_space, blank_char. cbv zeta. lia. Qed.
Lemma word_iff a : is_word a = true <-> word_char a.
Proof. unfold is_word, word_char. cbv zeta. lia. Qed.
Lemma path_iff a : is_path a = true <-> path_char a.
Proof.
  unfold is_path, path_char. rewrite !orb_true_iff, word_iff, !Ascii.eqb_eq. tauto.
Qed.

Lemma chars_app a b : chars (a ++ b)%string = chars a ++ chars b.
Proof. induction a; simpl; unfold chars in *; simpl; congruence. Qed.

Lemma chars_inj a b : chars a = chars b -> a = b.
Proof.
  intros H. unfold chars in H. rewrite <- (string_of_list_ascii_of_string a), H.
  apply string_of_list_ascii_of_string.
Qed.

Lemma chars_of l : chars (string_of_list_ascii l) = l.
Proof. apply list_ascii_of_string_of_list_ascii. Qed.

Lemma all_iff P s : all_chars P s <-> Forall P (chars s).
Proof.
  induction s as [|a s IH]; simpl; [split; auto|]. rewrite IH.
  split; [intros []|intros H; inversion H]; subst; auto.
Qed.

Definition blanks (l : text) : Prop := Forall (fun a => is_space a = true) l.
Lemma blank_iff s : blank s <-> blanks (chars s).
Proof.
  unfold blank, blanks. rewrite all_iff. split; apply Forall_impl; intros a; apply space_iff.
Qed.

Lemma drop_split l : exists w, blanks w /\ l = w ++ drop_space l /\
  match drop_space l with [] => True | a :: _ => is_space a = false end.
Proof.
  induction l as [|a l (w & Hw & E & H)]; simpl; [exists []; repeat split; constructor|].
  destruct (is_space a) eqn:Ea.
  - exists (a :: w). split; [constructor; auto|]. split; auto. simpl. congruence.
  - exists []. split; [constructor|]. auto.
Qed.

Definition hard (l : text) : Prop := match l with [] => True | a :: _ => is_space a = false end.

Lemma drop_blanks w l : blanks w -> hard l -> drop_space (w ++ l) = l.
Proof.
  induction 1 as [|a w Ha Hw IH]; simpl; intros H; [|rewrite Ha; auto].
  destruct l; simpl in *; auto. rewrite H. auto.
Qed.

Lemma blanks_rev w : blanks w -> blanks (rev w).
Proof. apply Forall_rev. Qed.

Lemma rstrip_blanks l w : blanks w -> hard (rev l) -> rstrip (l ++ w) = l.
Proof.
  intros H1 H2. unfold rstrip. rewrite rev_app_distr, drop_blanks by auto using blanks_rev.
  apply rev_involutive.
Qed.

Lemma rstrip_split l : exists w, blanks w /\ l = rstrip l ++ w /\ hard (rev (rstrip l)).
Proof.
  destruct (drop_split (rev l)) as (w & Hw & E & H). exists (rev w).
  split; [auto using blanks_rev|]. unfold rstrip. rewrite <- rev_app_distr, <- E, !rev_involutive. auto.
Qed.

Lemma after_iff p l r : after p l = Some r <-> l = p ++ r.
Proof.
  revert l. induction p as [|a p IH]; intros l; simpl; [split; congruence|].
  destruct l as [|b l]; [split; discriminate|]. destruct (Ascii.eqb_spec a b) as [->|N].
  - rewrite IH. split; congruence.
  - split; congruence.
Qed.

Lemma before_iff p l r : before p l = Some r <-> l = r ++ p.
Proof.
  unfold before. destruct (after (rev p) (rev l)) as [x|] eqn:E; simpl.
  - apply after_iff in E. apply (f_equal (@rev ascii)) in E.
    rewrite rev_involutive, rev_app_distr, rev_involutive in E. subst l. split; [intros [= <-]; auto|].
    intros H. apply app_inv_tail in H. rewrite H. auto.
  - split; [discriminate|]. intros ->. rewrite rev_app_distr in E.
    rewrite (proj2 (after_iff _ _ (rev r)) eq_refl) in E. discriminate.
Qed.

Lemma starts_iff p l : starts p l = true <-> exists r, l = p ++ r.
Proof.
  unfold starts. destruct (after p l) as [r|] eqn:E.
  - apply after_iff in E. split; eauto.
  - split; [discriminate|]. intros [r H]. apply after_iff in H. congruence.
Qed.

Lemma to_chars (s a : string) : s = a <-> chars s = chars a.
Proof. split; [intros ->; auto|apply chars_inj]. Qed.

(** ** The regular expressions *)

Lemma fence_iff s : is_fence s = true <-> fence s.
Proof.
  unfold is_fence, fence. rewrite starts_iff. split; intros [r H].
  - exists (string_of_list_ascii r). apply chars_inj. rewrite chars_app, chars_of. auto.
  - exists (chars r). rewrite H, chars_app. auto.
Qed.

Lemma binding_iff s p : binding s = Some p <-> bound_to s p.
Proof.
  unfold binding, bound_to. split.
  - intros H. destruct (after _ (chars s)) as [r1|] eqn:E1; [|discriminate].
    destruct (after _ (drop_space r1)) as [r2|] eqn:E2; [|discriminate].
    destruct (before _ _) as [r3|] eqn:E3; [|discriminate].
    destruct (_ && _) eqn:E4; [|discriminate]. injection H as H.
    apply after_iff in E1, E2. apply before_iff in E3. apply andb_prop in E4 as [E4 E5].
    destruct (drop_split r1) as (w1 & H1 & F1 & _). destruct (drop_split r2) as (w2 & H2 & F2 & _).
    destruct (rstrip_split (drop_space r2)) as (w4 & H4 & F4 & _).
    destruct (rstrip_split r3) as (w3 & H3 & F3 & _).
    exists (string_of_list_ascii w1), (string_of_list_ascii w2), (string_of_list_ascii w3), (string_of_list_ascii w4).
    rewrite !blank_iff, !chars_of. repeat split; auto.
    + intros ->. apply (f_equal chars) in H. rewrite chars_of in H. rewrite H in E4. discriminate.
    + apply all_iff. rewrite <- H, chars_of. rewrite forallb_forall in E5. apply Forall_forall.
      intros a Ha. apply E5 in Ha. rewrite <- space_iff. destruct (is_space a); discriminate.
    + apply chars_inj. rewrite !chars_app, !chars_of, <- H, chars_of, E1, F1, E2, F2, F4, E3.
      rewrite F3 at 1. rewrite <- !app_assoc. auto.
  - intros (w1 & w2 & w3 & w4 & H1 & H2 & H3 & H4 & Hp & Ha & E).
    rewrite blank_iff in *. rewrite all_iff in Ha. apply to_chars in E. rewrite !chars_app in E. rewrite E.
    assert (HD : exists a q, chars p = a :: q /\ is_space a = false).
    { destruct (chars p) as [|a q] eqn:Ec.
      - destruct Hp. apply chars_inj. auto.
      - exists a, q. split; auto. inversion Ha; subst. rewrite <- space_iff in *.
        destruct (is_space a); congruence. }
    destruct HD as (a & q & Hq & Hs).
    assert (HR : hard (rev (chars p))).
    { apply Forall_rev in Ha. destruct (rev (chars p)) as [|b t]; simpl; auto.
      inversion Ha; subst. rewrite <- space_iff in *. destruct (is_space b); congruence. }
    rewrite (proj2 (after_iff _ _ _) eq_refl).
    rewrite drop_blanks by (auto; reflexivity). rewrite (proj2 (after_iff _ _ _) eq_refl).
    rewrite drop_blanks by (auto; rewrite Hq; exact Hs).
    replace (chars p ++ chars w3 ++ chars "-->" ++ chars w4) with
      (((chars p ++ chars w3) ++ chars "-->") ++ chars w4) by (rewrite <- !app_assoc; auto).
    rewrite rstrip_blanks by (auto; rewrite rev_app_distr; reflexivity).
    rewrite (proj2 (before_iff _ _ _) eq_refl). rewrite rstrip_blanks by auto.
    assert (negb (Nat.eqb (length (chars p)) 0) = true) as -> by (rewrite Hq; auto).
    assert (forallb (fun b => negb (is_space b)) (chars p) = true) as ->.
    { apply forallb_forall. intros b Hb. rewrite Forall_forall in Ha. specialize (Ha b Hb).
      rewrite <- space_iff in Ha. destruct (is_space b); auto; congruence. }
    cbn [andb]. unfold chars. rewrite string_of_list_ascii_of_string. auto.
Qed.

Lemma main_here_iff l : main_here l = true <->
  exists w b, blanks w /\ l = chars "main" ++ w ++ chars "(" ++ b.
Proof.
  unfold main_here. destruct (after (chars "main") l) as [r|] eqn:E.
  - apply after_iff in E. rewrite starts_iff. split.
    + intros [b H]. destruct (drop_split r) as (w & Hw & F & _). exists w, b. split; auto. congruence.
    + intros (w & b & Hw & H). rewrite E in H. apply app_inv_head in H. subst r. exists b.
      apply drop_blanks; auto. reflexivity.
  - split; [discriminate|]. intros (w & b & Hw & ->).
    rewrite (proj2 (after_iff _ _ _) eq_refl) in E. discriminate.
Qed.

Lemma search_iff l : forall w, search_main w l = true <->
  exists a b, l = a ++ b /\ main_here b = true /\
    match rev a with [] => w = false | x :: _ => is_word x = false end.
Proof.
  induction l as [|c l IH]; intros w; simpl.
  - split; [discriminate|]. intros (a & b & E & H & _). destruct a, b; discriminate.
  - rewrite orb_true_iff, andb_true_iff, IH. split.
    + intros [[H1 H2]|(a & b & -> & H & H')].
      * exists [], (c :: l). simpl. repeat split; auto. destruct w; auto; discriminate.
      * exists (c :: a), b. repeat split; auto. simpl. destruct (rev a); simpl; auto.
    + intros ([|x a] & b & E & H & H').
      * simpl in *. subst b. left. rewrite H'. auto.
      * injection E as -> ->. right. exists a, b. repeat split; auto. simpl in H'.
        destruct (rev a); simpl in *; auto.
Qed.

Lemma entry_iff s : entry_point s = true <-> has_main s.
Proof.
  unfold entry_point, has_main. rewrite search_iff. split.
  - intros (a & b & E & H & H'). apply main_here_iff in H as (w & b' & Hw & ->).
    exists (string_of_list_ascii a), (string_of_list_ascii w), (string_of_list_ascii b').
    rewrite blank_iff, chars_of. split; auto. split.
    + apply chars_inj. rewrite !chars_app, !chars_of. auto.
    + intros a' x Ha. apply (f_equal chars) in Ha. rewrite chars_of, chars_app in Ha. subst a.
      rewrite rev_app_distr in H'. simpl in H'. rewrite <- word_iff. congruence.
  - intros (a & w & b & Hw & E & H). apply to_chars in E. rewrite !chars_app in E.
    exists (chars a), (chars "main" ++ chars w ++ chars "(" ++ chars b). split; auto. split.
    + apply main_here_iff. exists (chars w), (chars b). apply blank_iff in Hw. auto.
    + destruct (rev (chars a)) as [|x t] eqn:R; auto.
      apply (f_equal (@rev ascii)) in R. rewrite rev_involutive in R. simpl in R.
      specialize (H (string_of_list_ascii (rev t)) x). rewrite <- word_iff in H.
      destruct (is_word x); auto. destruct H; auto. apply chars_inj.
      rewrite chars_app, chars_of. auto.
Qed.

Lemma marks_iff m s : (exists a q, chars m = a :: q /\ is_space a = false) -> hard (rev (chars m)) ->
  String.eqb (string_of_list_ascii (strip (chars s))) m = true <-> marks m s.
Proof.
  intros (a & q & Hm & Hs) Hr. rewrite String.eqb_eq. unfold strip, marks. split.
  - intros H. apply (f_equal chars) in H. rewrite chars_of in H.
    destruct (drop_split (chars s)) as (w & Hw & F & _).
    destruct (rstrip_split (drop_space (chars s))) as (w' & Hw' & F' & _).
    exists (string_of_list_ascii w), (string_of_list_ascii w'). rewrite !blank_iff, !chars_of.
    repeat split; auto. apply chars_inj. rewrite !chars_app, !chars_of. rewrite <- H, <- F'. auto.
  - intros (w & w' & Hw & Hw' & E). apply to_chars in E. rewrite !chars_app in E.
    rewrite blank_iff in *. rewrite E. apply chars_inj. rewrite chars_of.
    rewrite drop_blanks by (auto; rewrite Hm; exact Hs). apply rstrip_blanks; auto.
Qed.

Lemma begin_iff s : is_begin s = true <-> opens s.
Proof. apply marks_iff; [eexists _, _; split; reflexivity|reflexivity]. Qed.
Lemma end_iff s : is_end s = true <-> closes s.
Proof. apply marks_iff; [eexists _, _; split; reflexivity|reflexivity]. Qed.

(** ** The blocks of a page *)

Definition fences (ls : list string) : nat := length (filter is_fence ls).
Definition bound_above (prev : option string) (above : list string) : option string :=
  match rev above with
  | l :: _ => binding l
  | [] => match prev with Some p => binding p | None => None end
  end.
Definition closed (rest : list string) : Prop :=
  rest = [] \/ exists c r, rest = c :: r /\ is_fence c = true.
Definition plain (body : list string) : Prop := Forall (fun l => is_fence l = false) body.
Definition first_block (bd : option string) (n : nat) (ls : list string) (b : block) : Prop :=
  exists rest, ls = b_body b ++ rest /\ plain (b_body b) /\ closed rest /\ b_line b = n /\ b_bound b = bd.
Definition shown (k : bool) (prev : option string) (n : nat) (ls : list string) (b : block) : Prop :=
  exists above o rest, ls = above ++ o :: b_body b ++ rest /\ Nat.even (fences above) = k /\
    is_fence o = true /\ plain (b_body b) /\ closed rest /\ b_line b = n + S (length above) /\
    b_bound b = bound_above prev above.

Lemma fences_cons l ls : fences (l :: ls) = if is_fence l then S (fences ls) else fences ls.
Proof. unfold fences. simpl. destruct (is_fence l); auto. Qed.

Lemma even_S n : Nat.even (S n) = negb (Nat.even n).
Proof. rewrite Nat.even_succ. reflexivity. Qed.

Lemma shown_cons k prev n l ls b : shown k prev n (l :: ls) b <->
  (k = true /\ is_fence l = true /\
   first_block (match prev with Some p => binding p | None => None end) (S n) ls b) \/
  shown (if is_fence l then negb k else k) (Some l) (S n) ls b.
Proof.
  unfold shown, first_block. split.
  - intros ([|l' above] & o & rest & E & K & F & P & C & L & B).
    + simpl in E. injection E as -> ->. left. repeat split; auto.
      exists rest. repeat split; auto. simpl in L. lia.
    + injection E as -> ->. right. exists above, o, rest. rewrite fences_cons in K. repeat split; auto.
      * destruct (is_fence l'); auto. rewrite even_S in K. rewrite <- K, negb_involutive. auto.
      * simpl in L. lia.
      * rewrite B. unfold bound_above. simpl. destruct (rev above); auto.
  - intros [(-> & F & rest & -> & P & C & L & B)|(above & o & rest & -> & K & F & P & C & L & B)].
    + exists [], l, rest. repeat split; auto. simpl. lia.
    + exists (l :: above), o, rest. rewrite fences_cons. repeat split; auto.
      * destruct (is_fence l); auto. rewrite even_S, K, negb_involutive. auto.
      * simpl. lia.
      * rewrite B. unfold bound_above. simpl. destruct (rev above); auto.
Qed.

Lemma shown_odd p q n ls b : shown false p n ls b -> shown false q n ls b.
Proof.
  intros (above & o & rest & E & K & F & P & C & L & B). exists above, o, rest. repeat split; auto.
  rewrite B. unfold bound_above. destruct (rev above) eqn:R; auto.
  apply (f_equal (@rev string)) in R. rewrite rev_involutive in R. subst above. discriminate.
Qed.

Lemma shown_nil k p n b : ~ shown k p n [] b.
Proof. intros (above & o & rest & E & _). destruct above; discriminate. Qed.

Lemma blocks_of ls :
  (forall n prev b, In b (out n prev ls) <-> shown true prev n ls b) /\
  (forall n start bd body b, In b (inn n start bd body ls) <->
     (exists b', b_body b = body ++ b_body b' /\ b_line b = b_line b' /\ b_bound b = b_bound b' /\
                 first_block bd start ls b') \/
     shown false None n ls b).
Proof.
  induction ls as [|l ls [IO II]].
  - split.
    + intros. simpl. split; [tauto|]. apply shown_nil.
    + intros n start bd body b. simpl. split.
      * intros [<-|[]]. left. exists (mkBlock start bd []). simpl. rewrite app_nil_r. repeat split; auto.
        exists []. repeat split; auto. constructor. left. auto.
      * intros [(b' & B1 & B2 & B3 & rest & E & _ & _ & L & D)|H]; [|destruct (shown_nil _ _ _ _ H)].
        left. symmetry in E. apply app_eq_nil in E as [E _]. destruct b, b'; simpl in *. subst.
        rewrite app_nil_r. auto.
  - split.
    + intros n prev b. rewrite shown_cons. simpl. destruct (is_fence l) eqn:F.
      * rewrite II. simpl. split.
        { intros [(b' & B1 & B2 & B3 & H)|H].
          - left. repeat split; auto. destruct b, b'; simpl in *. subst. auto.
          - right. eapply shown_odd; eauto. }
        { intros [(_ & _ & H)|H].
          - left. exists b. auto.
          - right. eapply shown_odd; eauto. }
      * rewrite IO. split; [auto|]. intros [(_ & H & _)|H]; [discriminate|auto].
    + intros n start bd body b. rewrite shown_cons. simpl. destruct (is_fence l) eqn:F.
      * simpl. rewrite IO. split.
        { intros [<-|H]; [left|auto]. exists (mkBlock start bd []). simpl. rewrite app_nil_r.
          repeat split; auto. exists (l :: ls). repeat split; auto. constructor. right. eauto. }
        { intros [(b' & B1 & B2 & B3 & rest & E & P & _ & L & D)|[(? & _)|H]]; [left|discriminate|auto].
          destruct (b_body b') as [|x y] eqn:Eb; simpl in E.
          - destruct b; simpl in *. rewrite app_nil_r in B1. subst. congruence.
          - injection E as -> ->. unfold plain in P. inversion P. congruence. }
      * rewrite II. split.
        { intros [(b' & B1 & B2 & B3 & rest & E & P & C & L & D)|H].
          - left. exists (mkBlock (b_line b') (b_bound b') (l :: b_body b')). simpl.
            rewrite <- app_assoc in B1. repeat split; auto. exists rest. simpl. repeat split; auto; [congruence|].
            constructor; auto.
          - right. right. eapply shown_odd; eauto. }
        { intros [(b' & B1 & B2 & B3 & rest & E & P & C & L & D)|[(? & _)|H]]; [left|discriminate|].
          - destruct (b_body b') as [|x y] eqn:Eb; simpl in E.
            + destruct C as [->|(c & r & -> & Hc)]; [discriminate|]. injection E as <- <-. congruence.
            + injection E as <- ->. exists (mkBlock (b_line b') (b_bound b') y). simpl.
              rewrite <- app_assoc. repeat split; auto. exists rest. simpl. repeat split; auto.
              inversion P; auto.
          - right. eapply shown_odd; eauto. }
Qed.

Lemma prefix_fence s : String.prefix "```" s = is_fence s.
Proof.
  unfold is_fence, starts, chars.
  destruct s as [|a [|b [|c s]]]; cbn [list_ascii_of_string after String.prefix];
    repeat match goal with
    | |- context [ascii_dec ?x ?y] => destruct (ascii_dec x y) as [<-|]
    | |- context [Ascii.eqb ?x ?x] => rewrite Ascii.eqb_refl
    | |- context [Ascii.eqb ?x ?y] => destruct (Ascii.eqb_spec x y); [subst; congruence|]
    end; auto; try congruence.
  destruct s; auto.
Qed.

Lemma blocks_iff ls b : In b (doc_blocks ls) <-> shows ls (b_line b) (b_bound b) (b_body b).
Proof.
  unfold doc_blocks. rewrite (proj1 (blocks_of ls)). unfold shown, shows.
  assert (NB : forall above, match b_bound b with
      | Some p => exists a l, above = a ++ [l] /\ bound_to l p
      | None => ~ (exists a l p, above = a ++ [l] /\ bound_to l p) end <->
      b_bound b = bound_above None above).
  { intros above. unfold bound_above. destruct (rev above) as [|l t] eqn:R;
      apply (f_equal (@rev string)) in R; rewrite rev_involutive in R; subst above; simpl.
    - destruct (b_bound b) as [p|].
      + split; [|discriminate]. intros (a & l & H & _). destruct a; discriminate.
      + split; auto. intros _ (a & l & p & H & _). destruct a; discriminate.
    - assert (INJ : forall a l', rev t ++ [l] = a ++ [l'] -> l = l').
      { intros a l' H. apply app_inj_tail in H. tauto. }
      destruct (b_bound b) as [p|].
      + split.
        * intros (a & l' & H & B). apply INJ in H as <-. symmetry. apply binding_iff; auto.
        * intros H. exists (rev t), l. split; auto. apply binding_iff; auto.
      + split.
        * intros H. destruct (binding l) as [p|] eqn:E; auto. destruct H. exists (rev t), l, p.
          split; auto. apply binding_iff; auto.
        * intros H (a & l' & p & H' & B). apply INJ in H' as <-. apply binding_iff in B. congruence. }
  assert (NF : forall body, plain body <-> (forall l, In l body -> ~ fence l)).
  { intros body. unfold plain. rewrite Forall_forall. split; intros H l Hl; specialize (H l Hl).
    - rewrite <- fence_iff. congruence.
    - rewrite <- fence_iff in H. destruct (is_fence l); auto; congruence. }
  assert (CL : forall rest, closed rest <-> rest = [] \/ exists c r, rest = c :: r /\ fence c).
  { intros rest. unfold closed. split; intros [H|(c & r & E & H)]; auto; right; exists c, r;
      apply fence_iff in H; auto. }
  assert (FI : forall above, length (filter (String.prefix "```") above) = fences above).
  { intros above. unfold fences. f_equal. induction above; simpl; auto.
    rewrite IHabove, prefix_fence. auto. }
  split; intros (above & o & rest & E & K & F & P & C & L & B); exists above, o, rest;
    rewrite ?FI in *; repeat split; auto; try (apply fence_iff; auto; fail); try (apply NF; auto; fail);
    try (apply CL; auto; fail); try (apply NB; auto; fail).
Qed.

(** ** The region of a source *)

Lemma index_iff {A} (p : A -> bool) l i : first_index p l = Some i <->
  exists a x b, l = a ++ x :: b /\ length a = i /\ p x = true /\ Forall (fun y => p y = false) a.
Proof.
  revert i. induction l as [|y l IH]; intros i; simpl.
  - split; [discriminate|]. intros (a & x & b & E & _). destruct a; discriminate.
  - destruct (p y) eqn:Hy.
    + split.
      * intros [= <-]. exists [], y, l. repeat split; auto.
      * intros ([|z a] & x & b & E & <- & Hx & Ha); auto.
        injection E as <- ->. inversion Ha. congruence.
    + split.
      * intros H. destruct (first_index p l) as [j|]; [|discriminate]. injection H as <-.
        destruct (proj1 (IH j) eq_refl) as (a & x & b & -> & <- & Hx & Ha).
        exists (y :: a), x, b. repeat split; auto.
      * intros ([|z a] & x & b & E & <- & Hx & Ha).
        { injection E as -> ->. congruence. }
        injection E as -> ->. inversion Ha; subst.
        rewrite (proj2 (IH (length a))); auto. exists a, x, b. auto.
Qed.

Lemma index_none {A} (p : A -> bool) l : first_index p l = None <-> Forall (fun y => p y = false) l.
Proof.
  induction l as [|y l IH]; simpl; [split; auto|]. destruct (p y) eqn:E.
  - split; [discriminate|]. intros H. inversion H. congruence.
  - destruct (first_index p l); simpl.
    + split; [discriminate|]. intros H. inversion H; subst. apply IH in H3. discriminate.
    + split; auto. intros _. constructor; auto. apply IH; auto.
Qed.

Lemma slice_mid {A} (a : list A) b r z : slice (length a + 1) (length a + 1 + length r) (a ++ b :: r ++ z) = r.
Proof.
  unfold slice. replace (length a + 1 + length r - (length a + 1))%nat with (length r) by lia.
  rewrite skipn_app, skipn_all2 by lia. replace (length a + 1 - length a)%nat with 1%nat by lia. simpl.
  rewrite firstn_app, Nat.sub_diag, firstn_all. simpl. apply app_nil_r.
Qed.

Lemma same_split {A} (a a' : list A) x y : length a = length a' -> a ++ x = a' ++ y -> a = a' /\ x = y.
Proof.
  revert a'. induction a as [|u a IH]; intros [|v a'] L E; try discriminate; auto.
  injection E as -> E. injection L as L. destruct (IH a' L E) as [-> ->]. auto.
Qed.

Lemma not_both l : opens l -> closes l -> False.
Proof.
  rewrite <- begin_iff, <- end_iff. unfold is_begin, is_end. rewrite !String.eqb_eq.
  intros -> H. discriminate.
Qed.

Lemma region_iff ls r : source_region ls = Some r <-> region ls r \/ (crossed ls /\ r = []).
Proof.
  assert (NB : forall l, is_begin l = false <-> ~ opens l).
  { intros l. rewrite <- begin_iff. destruct (is_begin l); split; congruence. }
  assert (NE : forall l, is_end l = false <-> ~ closes l).
  { intros l. rewrite <- end_iff. destruct (is_end l); split; congruence. }
  unfold source_region. split.
  - intros H. destruct (first_index is_begin ls) as [i|] eqn:Ei; [|discriminate].
    destruct (first_index is_end ls) as [j|] eqn:Ej; [|discriminate]. injection H as <-.
    apply index_iff in Ei as (a & b & z & E1 & L1 & H1 & A1).
    apply index_iff in Ej as (a' & e & z' & E2 & L2 & H2 & A2).
    rewrite Forall_forall in A1, A2.
    destruct (Nat.lt_trichotomy i j) as [Hij|[Hij|Hij]].
    + left. exists a, b, e, z'.
      assert (exists r, a' = a ++ b :: r) as [r ->].
      { assert (E : firstn j ls = firstn j ls) by auto. rewrite E2 in E at 1.
        rewrite E1 in E. rewrite firstn_app, <- L2, Nat.sub_diag, firstn_all in E. simpl in E.
        rewrite app_nil_r in E. rewrite firstn_app, firstn_all2 in E by lia.
        destruct (length a' - length a)%nat eqn:D; [lia|]. simpl in E. eauto. }
      assert (S : slice (i + 1) j ls = r).
      { rewrite E2, <- app_assoc. simpl. subst i j. rewrite app_length. simpl.
        replace (length a + S (length r))%nat with (length a + 1 + length r)%nat by lia. apply slice_mid. }
      rewrite S. rewrite <- app_assoc in E2. simpl in E2. split; auto.
      split; [apply begin_iff; auto|]. split; [apply end_iff; auto|]. split.
      * intros l Hl. split; [apply NB, A1; auto|apply NE, A2, in_or_app; auto].
      * intros l Hl. apply NE, A2, in_or_app. simpl. auto.
    + exfalso. subst j. rewrite E1 in E2.
      assert (a = a' /\ b :: z = e :: z') as [_ E].
      { apply same_split; auto. congruence. }
      injection E as -> _. apply (not_both e); [apply begin_iff|apply end_iff]; auto.
    + right.
      assert (exists r, a = a' ++ e :: r) as [r ->].
      { assert (E : firstn i ls = firstn i ls) by auto. rewrite E1 in E at 1.
        rewrite E2 in E. rewrite firstn_app, <- L1, Nat.sub_diag, firstn_all in E. simpl in E.
        rewrite app_nil_r in E. rewrite firstn_app, firstn_all2 in E by lia.
        destruct (length a - length a')%nat eqn:D; [lia|]. simpl in E. eauto. }
      split.
      * exists a', e, r, b, z. rewrite <- app_assoc in E1. simpl in E1. split; auto.
        split; [apply begin_iff; auto|]. split; [apply end_iff; auto|]. split.
        { intros l Hl. split; [apply NB, A1, in_or_app; auto|apply NE, A2; auto]. }
        { intros l Hl. apply NB, A1, in_or_app. simpl. auto. }
      * unfold slice. replace (j - (i + 1))%nat with 0%nat by lia. auto.
  - intros [(a & b & e & z & -> & Hb & He & Ha & Hr)|[(a & e & m & b & z & -> & Hb & He & Ha & Hm) ->]].
    + assert (first_index is_begin (a ++ b :: r ++ e :: z) = Some (length a)) as ->.
      { apply index_iff. exists a, b, (r ++ e :: z). repeat split; auto; [apply begin_iff; auto|].
        apply Forall_forall. intros l Hl. apply NB, Ha; auto. }
      assert (first_index is_end (a ++ b :: r ++ e :: z) = Some (length a + 1 + length r)%nat) as ->.
      { apply index_iff. exists (a ++ b :: r), e, z. repeat split.
        - rewrite <- app_assoc. auto.
        - rewrite app_length. simpl. lia.
        - apply end_iff; auto.
        - apply Forall_forall. intros l Hl. apply NE. apply in_app_or in Hl as [Hl|[<-|Hl]].
          + apply Ha; auto.
          + intros Hc. apply (not_both b); auto.
          + apply Hr; auto. }
      f_equal. apply slice_mid.
    + assert (first_index is_begin (a ++ e :: m ++ b :: z) = Some (length a + 1 + length m)%nat) as ->.
      { apply index_iff. exists (a ++ e :: m), b, z. repeat split.
        - rewrite <- app_assoc. auto.
        - rewrite app_length. simpl. lia.
        - apply begin_iff; auto.
        - apply Forall_forall. intros l Hl. apply NB. apply in_app_or in Hl as [Hl|[<-|Hl]].
          + apply Ha; auto.
          + intros Hc. apply (not_both e); auto.
          + apply Hm; auto. }
      assert (first_index is_end (a ++ e :: m ++ b :: z) = Some (length a)) as ->.
      { apply index_iff. exists a, e, (m ++ b :: z). repeat split; auto; [apply end_iff; auto|].
        apply Forall_forall. intros l Hl. apply NE, Ha; auto. }
      unfold slice. replace (length a - (length a + 1 + length m + 1))%nat with 0%nat by lia. auto.
Qed.

Lemma same_iff a b : same_lines a b = true <-> a = b.
Proof.
  revert b. induction a as [|x a IH]; intros [|y b]; simpl; try (split; congruence).
  rewrite andb_true_iff, String.eqb_eq, IH. split; [intros [-> ->]; auto|intros [= -> ->]; auto].
Qed.

Lemma examples_ok files pages : doc_examples files pages = 0 <->
  forall p ls line src body, In p pages -> files p = Some ls -> shows ls line src body ->
  match src with
  | None => forall l, In l body -> ~ has_main l
  | Some f => exists fl, files f = Some fl /\ (region fl body \/ (crossed fl /\ body = []))
  end.
Proof.
  assert (CB : forall page b, check_block files page b = [] <->
    match b_bound b with
    | None => forall l, In l (b_body b) -> ~ has_main l
    | Some f => exists fl, files f = Some fl /\ (region fl (b_body b) \/ (crossed fl /\ b_body b = []))
    end).
  { intros page b. unfold check_block. destruct (b_bound b) as [f|].
    - destruct (files f) as [fl|]; [|split; [discriminate|intros (fl & H & _); discriminate]].
      split.
      + intros H. exists fl. split; auto. apply region_iff.
        destruct (source_region fl) as [r|]; [|discriminate].
        destruct (same_lines r (b_body b)) eqn:E; [|discriminate]. apply same_iff in E. congruence.
      + intros (fl' & [= <-] & H). apply region_iff in H. rewrite H.
        rewrite (proj2 (same_iff _ _) eq_refl). auto.
    - destruct (existsb entry_point (b_body b)) eqn:E.
      + split; [discriminate|]. intros H. apply existsb_exists in E as (l & Hl & He).
        apply entry_iff in He. destruct (H l Hl He).
      + split; auto. intros _ l Hl He. apply entry_iff in He.
        assert (existsb entry_point (b_body b) = true) by (apply existsb_exists; eauto). congruence. }
  assert (FM : forall A B (g : A -> list B) l, flat_map g l = [] <-> forall x, In x l -> g x = []).
  { induction l as [|x l IH]; simpl; [split; [intros _ ? []|auto]|]. split.
    - intros H. apply app_eq_nil in H as [H1 H2]. intros y [<-|Hy]; auto. apply IH; auto.
    - intros H. rewrite (H x) by auto. apply IH; auto. }
  unfold doc_examples. transitivity (check_pages files pages = []).
  { destruct (check_pages files pages); split; congruence. }
  unfold check_pages. rewrite FM. split.
  - intros H p ls line src body Hp Hf Hs. specialize (H p Hp). rewrite Hf in H.
    rewrite FM in H. apply (CB p (mkBlock line src body)), H, blocks_iff; auto.
  - intros H p Hp. destruct (files p) as [ls|] eqn:Hf; auto. apply FM. intros b Hb.
    apply CB. apply blocks_iff in Hb. apply (H p ls (b_line b)); auto.
Qed.

(** The reported line. *)
Lemma first_diff doc src : ~ In "<end of region>" doc -> ~ In "<end of block>" src ->
  forall n i, (Nat.max (length doc) (length src) = i + n)%nat ->
  firstn i doc = firstn i src -> doc <> src ->
  exists j, first_difference doc src n i = Some (S j) /\
    firstn j doc = firstn j src /\ nth_error doc j <> nth_error src j.
Proof.
  intros Hd Hs. induction n as [|n IH]; intros i Hn Hi Hne.
  - exfalso. apply Hne. rewrite <- (firstn_all2 doc (n := i)), Hi by lia. apply firstn_all2. lia.
  - cbn [first_difference].
    assert (ND : forall (l : list string) d, nth i l d = match nth_error l i with Some x => x | None => d end).
    { intros l d. rewrite <- (nth_default_eq i l d). reflexivity. }
    rewrite !ND.
    assert (LI : nth_error doc i = nth_error src i -> firstn (S i) doc = firstn (S i) src).
    { intros H. clear - Hi H. revert doc src Hi H. induction i; intros [|x doc] [|y src] Hi H; simpl in *; try congruence.
      injection Hi as -> Hi. f_equal. apply IHi; auto. }
    destruct (nth_error doc i) as [x|] eqn:E1; destruct (nth_error src i) as [y|] eqn:E2.
    + destruct (String.eqb_spec x y) as [->|N].
      * apply IH; auto. lia.
      * exists i. rewrite E1, E2. repeat split; auto. congruence.
    + destruct (String.eqb_spec x "<end of region>") as [->|N].
      * apply nth_error_In in E1. tauto.
      * exists i. rewrite E1, E2. repeat split; auto. congruence.
    + destruct (String.eqb_spec "<end of block>" y) as [<-|N].
      * apply nth_error_In in E2. tauto.
      * exists i. rewrite E1, E2. repeat split; auto. congruence.
    + apply nth_error_None in E1, E2. lia.
Qed.

Lemma reported_first doc src : ~ In "<end of region>" doc -> ~ In "<end of block>" src -> doc <> src ->
  exists j, reported doc src = Some (S j) /\
    firstn j doc = firstn j src /\ nth_error doc j <> nth_error src j.
Proof. intros. apply first_diff; auto. Qed.

(** ** The navigation *)

Lemma span_split p l : let '(x, y) := span p l in l = x ++ y /\ Forall (fun a => p a = true) x /\
  match y with [] => True | a :: _ => p a = false end.
Proof.
  induction l as [|a l IH]; simpl; [auto|]. destruct (p a) eqn:E; [|auto].
  destruct (span p l) as [x y]. destruct IH as (-> & H & H'). auto.
Qed.

Lemma span_max p x y : Forall (fun a => p a = true) x ->
  match y with [] => True | a :: _ => p a = false end -> span p (x ++ y) = (x, y).
Proof.
  induction 1 as [|a x Ha Hx IH]; simpl; intros H.
  - destruct y; simpl; auto. rewrite H. auto.
  - rewrite Ha, IH; auto.
Qed.

Lemma path_not_space a : is_path a = true -> is_space a = false.
Proof.
  rewrite path_iff. intros H. destruct (is_space a) eqn:E; auto.
  destruct H as [H|[H|[H|H]]]; try (subst a; discriminate).
  apply space_iff in E. unfold word_char, blank_char in *. lia.
Qed.

Lemma nav_entry_iff s p : nav_entry s = Some p <-> nav_line s p.
Proof.
  unfold nav_entry, nav_line. split.
  - intros H. pose proof (span_split is_path (drop_space (rev (chars s)))) as SP.
    destruct (span _ _) as [name rest]. destruct SP as (E & HN & _).
    destruct (after _ name) as [[|x0 xs]|] eqn:EA; try discriminate.
    destruct (drop_space rest) as [|c cs] eqn:ED; [discriminate|].
    assert (c = ":"%char /\ p = string_of_list_ascii (rev name)) as [-> ->].
    { destruct c as [b0 b1 b2 b3 b4 b5 b6 b7]; destruct b0, b1, b2, b3, b4, b5, b6, b7; try discriminate. split; congruence. }
    clear H. apply after_iff in EA.
    destruct (drop_split (rev (chars s))) as (w' & Hw' & F' & _).
    destruct (drop_split rest) as (w & Hw & F & _). rewrite ED in F.
    exists (string_of_list_ascii (rev cs)), (string_of_list_ascii (rev w)), (string_of_list_ascii (rev w')),
      (string_of_list_ascii (rev (x0 :: xs))).
    rewrite !blank_iff, !chars_of. split; [auto using blanks_rev|]. split; [auto using blanks_rev|].
    split; [|split; [|split]].
    + apply chars_inj. rewrite !chars_app, !chars_of. rewrite <- (rev_involutive (chars s)), F', E, F.
      rewrite !rev_app_distr. simpl. rewrite <- !app_assoc. auto.
    + apply chars_inj. rewrite !chars_app, !chars_of, EA, rev_app_distr. auto.
    + intros H. apply (f_equal chars) in H. rewrite chars_of in H. simpl in H.
      destruct (rev xs); discriminate.
    + apply all_iff. rewrite chars_of. apply Forall_rev. eapply Forall_impl; [|exact HN].
      intros a. apply path_iff.
  - intros (a & w & w' & x & Hw & Hw' & E & Ep & Hx & Hp). rewrite blank_iff in *. rewrite all_iff in Hp.
    apply to_chars in E. rewrite !chars_app in E.
    assert (PP : Forall (fun c => is_path c = true) (rev (chars p))).
    { apply Forall_rev. eapply Forall_impl; [|exact Hp]. intros c. apply path_iff. }
    assert (RP : rev (chars p) = rev (chars ".md") ++ rev (chars x)).
    { rewrite Ep, chars_app, rev_app_distr. auto. }
    assert (drop_space (rev (chars s)) = rev (chars p) ++ rev (chars w) ++ rev (chars ":") ++ rev (chars a)) as ->.
    { rewrite E, !rev_app_distr, <- !app_assoc. apply drop_blanks; auto using blanks_rev.
      rewrite RP. reflexivity. }
    rewrite span_max; auto.
    + rewrite RP at 1. rewrite (proj2 (after_iff _ _ _) eq_refl).
      destruct (rev (chars x)) eqn:RX.
      { apply (f_equal (@rev ascii)) in RX. rewrite rev_involutive in RX. destruct Hx.
        apply chars_inj. auto. }
      rewrite drop_blanks by (auto using blanks_rev; reflexivity). cbn [chars list_ascii_of_string rev app].
      rewrite rev_involutive. unfold chars. rewrite string_of_list_ascii_of_string. auto.
    + apply blanks_rev in Hw. destruct (rev (chars w)) as [|c t]; simpl; auto.
      inversion Hw; subst. destruct (is_path c) eqn:Ec; auto.
      apply path_not_space in Ec. congruence.
Qed.

Lemma nav_iff s : is_nav s = true <-> nav_head s.
Proof.
  unfold is_nav, nav_head. rewrite String.eqb_eq. split.
  - intros H. apply (f_equal chars) in H. rewrite chars_of in H.
    destruct (rstrip_split (chars s)) as (w & Hw & F & _). exists (string_of_list_ascii w).
    rewrite blank_iff, chars_of. split; auto. apply chars_inj. rewrite chars_app, chars_of. congruence.
  - intros (w & Hw & ->). apply blank_iff in Hw. rewrite chars_app, rstrip_blanks by (auto; reflexivity).
    auto.
Qed.

Lemma key_iff s : next_key s = true <-> top_key s.
Proof.
  unfold next_key, top_key. destruct s as [|a r].
  - simpl. split; [discriminate|]. intros (a & r & H & _). discriminate.
  - cbn [chars list_ascii_of_string drop_space]. rewrite andb_true_iff. split.
    + intros [H1 H2]. exists a, r. split; auto. rewrite <- space_iff.
      destruct (is_space a) eqn:E; [discriminate|]. split; [discriminate|]. intros ->. discriminate.
    + intros (a' & r' & [= <- <-] & H1 & H2). rewrite <- space_iff in H1.
      destruct (is_space a) eqn:E; [congruence|]. split; auto.
      destruct (starts _ _) eqn:ES; auto. apply starts_iff in ES as [q H]. injection H as -> _. congruence.
Qed.

Lemma entries_picks body rest : (forall l, In l body -> ~ top_key l) ->
  (rest = [] \/ exists k r, rest = k :: r /\ top_key k) -> picks body (entries (body ++ rest)).
Proof.
  intros Hb Hr. induction body as [|l body IH]; simpl.
  - destruct Hr as [->|(k & r & -> & Hk)]; [constructor|]. simpl. apply key_iff in Hk. rewrite Hk. constructor.
  - assert (next_key l = false) as ->.
    { destruct (next_key l) eqn:E; auto. apply key_iff in E. destruct (Hb l); simpl; auto. }
    destruct (nav_entry l) as [p|] eqn:E.
    + constructor; [apply nav_entry_iff; auto|]. apply IH. intros. apply Hb. simpl. auto.
    + apply pk_other; [|apply IH; intros; apply Hb; simpl; auto].
      intros p H. apply nav_entry_iff in H. congruence.
Qed.

Lemma picks_fun ls ps : picks ls ps -> forall qs, picks ls qs -> ps = qs.
Proof.
  induction 1; intros qs Q; inversion Q; subst; auto.
  - f_equal; auto. apply nav_entry_iff in H, H3. congruence.
  - destruct (H3 p); auto.
  - destruct (H p); auto.
Qed.

Lemma cut_key (ls : list string) : exists body rest, ls = body ++ rest /\ (forall l, In l body -> ~ top_key l) /\
  (rest = [] \/ exists k r, rest = k :: r /\ top_key k).
Proof.
  induction ls as [|l ls (body & rest & -> & H & H')].
  - exists [], []. simpl. repeat split; auto.
  - destruct (next_key l) eqn:E.
    + exists [], (l :: body ++ rest). simpl. repeat split; auto. right. apply key_iff in E. eauto.
    + exists (l :: body), rest. simpl. repeat split; auto. intros x [<-|Hx]; auto.
      rewrite <- key_iff. congruence.
Qed.

Lemma nav_pages_iff ls ps : nav_pages ls = ps <-> lists ls ps.
Proof.
  assert (NN : forall a, Forall (fun l => is_nav l = false) a <-> (forall l, In l a -> ~ nav_head l)).
  { intros a. rewrite Forall_forall. split; intros H l Hl; specialize (H l Hl).
    - rewrite <- nav_iff. congruence.
    - rewrite <- nav_iff in H. destruct (is_nav l); auto; congruence. }
  assert (SK : forall (a : list string) n z, skipn (length a + 1) (a ++ n :: z) = z).
  { intros a n z. rewrite skipn_app, skipn_all2 by lia.
    replace (length a + 1 - length a)%nat with 1%nat by lia. auto. }
  unfold nav_pages, lists. split.
  - destruct (first_index is_nav ls) as [i|] eqn:E.
    + apply index_iff in E as (a & n & z & -> & <- & Hn & Ha). intros <-. left.
      rewrite SK. destruct (cut_key z) as (body & rest & -> & Hb & Hr).
      exists a, n, body, rest. split; auto. split; [apply NN; auto|]. split; [apply nav_iff; auto|].
      split; auto. split; auto. apply entries_picks; auto.
    + intros <-. right. split; auto. apply NN, index_none; auto.
  - intros [(a & n & body & rest & -> & Ha & Hn & Hb & Hr & P)|[H ->]].
    + assert (first_index is_nav (a ++ n :: body ++ rest) = Some (length a)) as ->.
      { apply index_iff. exists a, n, (body ++ rest). repeat split; auto; [apply nav_iff; auto|apply NN; auto]. }
      rewrite SK. eapply picks_fun; [|exact P]. apply entries_picks; auto.
    + apply NN, index_none in H. rewrite H. auto.
Qed.

Lemma member_iff p l : member p l = true <-> In p l.
Proof.
  unfold member. rewrite existsb_exists. split.
  - intros (x & H & E). apply String.eqb_eq in E. congruence.
  - intros H. exists p. split; auto. apply String.eqb_refl.
Qed.

Lemma count_occ_is p l : count p l = count_occ string_dec l p.
Proof.
  unfold count. induction l as [|x l IH]; simpl; auto.
  destruct (String.eqb_spec p x), (string_dec x p); simpl; congruence.
Qed.

Lemma filter_nil {A} (p : A -> bool) l : filter p l = [] <-> forall x, In x l -> p x = false.
Proof.
  induction l as [|x l IH]; simpl; [split; [intros _ ? []|auto]|]. destruct (p x) eqn:E.
  - split; [discriminate|]. intros H. rewrite (H x) in E by auto. discriminate.
  - rewrite IH. split; [intros H y [<-|Hy]; auto|auto].
Qed.

Lemma nodup_nil (l : list string) : nodup string_dec l = [] <-> l = [].
Proof.
  split; [|intros ->; auto]. destruct l as [|x l]; auto. intros H.
  assert (In x (nodup string_dec (x :: l))) as HI by (apply nodup_In; simpl; auto). rewrite H in HI. destruct HI.
Qed.

Lemma nav_ok yml disk : NoDup disk ->
  (check_nav yml disk = 0 <-> exists ls ps, yml = Some ls /\ lists ls ps /\ Permutation ps disk).
Proof.
  intros ND. unfold check_nav. destruct yml as [ls|].
  2:{ split; [discriminate|]. intros (ls & ps & H & _). discriminate. }
  transitivity (nav_problems ls disk = []).
  { destruct (nav_problems ls disk); split; congruence. }
  unfold nav_problems. cbv zeta. set (ps := nav_pages ls).
  transitivity (Permutation ps disk).
  2:{ split.
      - intros H. exists ls, ps. repeat split; auto. apply nav_pages_iff. auto.
      - intros (ls' & ps' & [= <-] & H & P). apply nav_pages_iff in H. subst ps' ps. auto. }
  split.
  - intros H. apply app_eq_nil in H as [H1 H]. apply app_eq_nil in H as [H2 H3].
    apply map_eq_nil in H1, H2, H3. apply (proj1 (nodup_nil _)) in H3.
    pose proof (proj1 (filter_nil _ _) H1) as G1. pose proof (proj1 (filter_nil _ _) H2) as G2.
    pose proof (proj1 (filter_nil _ _) H3) as G3. clear H1 H2 H3. cbn beta in *.
    apply NoDup_Permutation; auto.
    + apply (NoDup_count_occ string_dec). intros x. rewrite <- count_occ_is.
      destruct (in_dec string_dec x ps) as [Hx|Hx].
      * specialize (G3 x Hx). apply Nat.ltb_ge in G3. auto.
      * rewrite count_occ_is. apply (count_occ_not_In string_dec) in Hx. lia.
    + intros x. split; intros Hx.
      * specialize (G2 x Hx). apply negb_false_iff, member_iff in G2. auto.
      * specialize (G1 x Hx). apply negb_false_iff, member_iff in G1. auto.
  - intros P. assert (NP : NoDup ps) by (eapply Permutation_NoDup; [symmetry|]; eauto).
    assert (filter (fun p => negb (member p ps)) disk = []) as ->.
    { apply filter_nil. intros x Hx. apply negb_false_iff, member_iff.
      apply (Permutation_in x (Permutation_sym P) Hx). }
    assert (filter (fun p => negb (member p disk)) ps = []) as ->.
    { apply filter_nil. intros x Hx. apply negb_false_iff, member_iff. apply (Permutation_in x P Hx). }
    assert (filter (fun p => Nat.ltb 1 (count p ps)) ps = []) as ->; auto.
    apply filter_nil. intros x Hx. apply Nat.ltb_ge. rewrite count_occ_is.
    apply (NoDup_count_occ string_dec); auto.
Qed.

Lemma exits files pages yml disk :
  (doc_examples files pages = 0 \/ doc_examples files pages = 1) /\ (check_nav yml disk = 0 \/ check_nav yml disk = 1).
Proof.
  unfold doc_examples, check_nav. split; [destruct check_pages; auto|]. destruct yml as [ls|]; auto. destruct nav_problems; auto.
Qed.

Definition shown_on (files : filesystem) (pages : list string) (p : string) (n : nat) (src : option string) (body : list string) :=
  In p pages /\ exists ls, files p = Some ls /\ shows ls n src body.
Lemma pages_in files pages x : In x (check_pages files pages) <->
  exists p n src body, shown_on files pages p n src body /\ In x (check_block files p (mkBlock n src body)).
Proof.
  unfold check_pages, shown_on. rewrite in_flat_map. split.
  - intros (p & Hp & H). destruct (files p) as [ls|] eqn:Hf; [|destruct H]. apply in_flat_map in H as (b & Hb & H).
    apply blocks_iff in Hb. destruct b as [n src body]. exists p, n, src, body. split; [|auto]. split; eauto.
  - intros (p & n & src & body & (Hp & ls & Hf & Hs) & H). exists p. split; auto. rewrite Hf. apply in_flat_map.
    exists (mkBlock n src body). split; auto. apply blocks_iff. auto.
Qed.
Lemma none_iff ls : source_region ls = None <-> (forall l, In l ls -> ~ opens l) \/ (forall l, In l ls -> ~ closes l).
Proof.
  assert (B : forall (q : string -> bool) (Q : string -> Prop), (forall l, q l = true <-> Q l) ->
    (first_index q ls = None <-> forall l, In l ls -> ~ Q l)).
  { intros q Q E. rewrite index_none, Forall_forall. split; intros H l Hl.
    - intros K. apply E in K. rewrite (H l Hl) in K. discriminate.
    - destruct (q l) eqn:K; auto. apply E in K. destruct (H l Hl K). }
  unfold source_region. rewrite <- (B _ _ begin_iff), <- (B _ _ end_iff).
  destruct (first_index is_begin ls), (first_index is_end ls); split; intros H; auto; try discriminate; destruct H; discriminate.
Qed.
Lemma failures files pages p n f k :
  (In (NoBinding p n) (check_pages files pages) <->
    exists body l, shown_on files pages p n None body /\ In l body /\ has_main l) /\
  (In (NoFile p n f) (check_pages files pages) <->
    exists body, shown_on files pages p n (Some f) body /\ files f = None) /\
  (In (NoMarkers p n f) (check_pages files pages) <->
    exists body fl, shown_on files pages p n (Some f) body /\ files f = Some fl /\
      ((forall l, In l fl -> ~ opens l) \/ (forall l, In l fl -> ~ closes l))) /\
  (In (Drifted p n f k) (check_pages files pages) <->
    exists body fl r, shown_on files pages p n (Some f) body /\ files f = Some fl /\
      (region fl r \/ (crossed fl /\ r = [])) /\ r <> body /\ reported body r = k).
Proof.
  rewrite !pages_in. unfold check_block. cbn [b_bound b_line b_body].
  refine (conj _ (conj _ (conj _ _))); split.
  - intros (p' & n' & src & body & S & H). destruct src as [f'|].
    + destruct (files f') as [fl|]; [destruct (source_region fl) as [r|]; [destruct (same_lines r body)|]|];
        simpl in H; intuition discriminate.
    + destruct (existsb entry_point body) eqn:E; [|destruct H]. destruct H as [[= -> ->]|[]].
      apply existsb_exists in E as (l & Hl & E). apply entry_iff in E. eauto.
  - intros (body & l & S & Hl & E). apply entry_iff in E. exists p, n, None, body. split; auto.
    rewrite (proj2 (existsb_exists _ _)) by eauto. simpl. auto.
  - intros (p' & n' & src & body & S & H). destruct src as [f'|].
    + destruct (files f') as [fl|] eqn:Hf; [destruct (source_region fl) as [r|]; [destruct (same_lines r body)|]|];
        simpl in H; try (intuition discriminate). destruct H as [[= -> -> ->]|[]]. eauto.
    + destruct (existsb entry_point body); simpl in H; intuition discriminate.
  - intros (body & S & E). exists p, n, (Some f), body. rewrite E. simpl. auto.
  - intros (p' & n' & src & body & S & H). destruct src as [f'|].
    + destruct (files f') as [fl|] eqn:Hf; [destruct (source_region fl) as [r|] eqn:R; [destruct (same_lines r body)|]|];
        simpl in H; try (intuition discriminate). destruct H as [[= -> -> ->]|[]]. apply none_iff in R. eauto 6.
    + destruct (existsb entry_point body); simpl in H; intuition discriminate.
  - intros (body & fl & S & Hf & R). apply none_iff in R. exists p, n, (Some f), body. rewrite Hf, R. simpl. auto.
  - intros (p' & n' & src & body & S & H). destruct src as [f'|].
    + destruct (files f') as [fl|] eqn:Hf; [destruct (source_region fl) as [r|] eqn:R; [destruct (same_lines r body) eqn:E|]|];
        simpl in H; try (intuition discriminate). destruct H as [[= -> -> -> <-]|[]]. apply region_iff in R.
      exists body, fl, r. split; [exact S|]. split; [exact Hf|]. split; [exact R|]. split; [|reflexivity].
      intros K. apply same_iff in K. congruence.
    + destruct (existsb entry_point body); simpl in H; intuition discriminate.
  - intros (body & fl & r & S & Hf & R & N & K). apply region_iff in R. exists p, n, (Some f), body. rewrite Hf, R.
    split; auto. destruct (same_lines r body) eqn:E; [apply same_iff in E; congruence|]. subst k. simpl. auto.
Qed.

Lemma twice_iff (q : string) ps : (1 < count_occ string_dec ps q)%nat <-> exists a b c, ps = a ++ q :: b ++ q :: c.
Proof.
  split.
  - intros H. assert (I : In q ps) by (apply (count_occ_In string_dec); lia). apply in_split in I as (a & r & ->).
    destruct (in_dec string_dec q a) as [I|I].
    + apply in_split in I as (x & y & ->). exists x, y, r. rewrite <- app_assoc. reflexivity.
    + rewrite count_occ_app in H. rewrite (proj1 (count_occ_not_In string_dec a q) I) in H. simpl in H.
      destruct (string_dec q q) as [_|N]; [|congruence]. assert (J : In q r) by (apply (count_occ_In string_dec); lia).
      apply in_split in J as (x & y & ->). exists a, x, y. reflexivity.
  - intros (a & b & c & ->). rewrite count_occ_app. simpl. destruct (string_dec q q) as [_|N]; [|congruence].
    rewrite count_occ_app. simpl. destruct (string_dec q q) as [_|N]; [lia|congruence].
Qed.
Lemma problems ls ps disk q : lists ls ps ->
  (In (Unlisted q) (nav_problems ls disk) <-> In q disk /\ ~ In q ps) /\
  (In (Nowhere q) (nav_problems ls disk) <-> In q ps /\ ~ In q disk) /\
  (In (Twice q) (nav_problems ls disk) <-> exists a b c, ps = a ++ q :: b ++ q :: c).
Proof.
  intros L. apply nav_pages_iff in L. unfold nav_problems. rewrite L. cbv zeta.
  assert (NM : forall x l, negb (member x l) = true <-> ~ In x l).
  { intros x l. rewrite negb_true_iff, <- member_iff. destruct (member x l); split; congruence. }
  refine (conj _ (conj _ _)); rewrite !in_app_iff, !in_map_iff.
  - split.
    + intros [(x & [= ->] & H)|[(x & H & _)|(x & H & _)]]; try discriminate. apply filter_In in H. rewrite NM in H. auto.
    + intros H. left. exists q. rewrite filter_In, NM. auto.
  - split.
    + intros [(x & H & _)|[(x & [= ->] & H)|(x & H & _)]]; try discriminate. apply filter_In in H. rewrite NM in H. auto.
    + intros H. right. left. exists q. rewrite filter_In, NM. auto.
  - rewrite <- twice_iff. split.
    + intros [(x & H & _)|[(x & H & _)|(x & [= ->] & H)]]; try discriminate. apply nodup_In, filter_In in H as [_ H].
      apply Nat.ltb_lt in H. rewrite count_occ_is in H. auto.
    + intros H. right. right. exists q. split; auto. apply nodup_In, filter_In.
      rewrite Nat.ltb_lt, count_occ_is. split; auto. apply (count_occ_In string_dec). lia.
Qed.
