(** * Facts about the text of the single header *)
From Coq Require Import Lia.
From Verif Require AmalgamSpec AmalgamFacts.
From Verif Require Import DocTools DocSpec DocFacts AmalgamText AmalgamTextSpec AmalgamTextFacts.
Local Open Scope list_scope.
Local Open Scope nat_scope.
(** ** The expressions on a line *)

Lemma opening_iff l q y : opening l = q :: y <->
  exists w1 w2, blanks w1 /\ blanks w2 /\ is_space q = false /\ l = w1 ++ chars "#include" ++ w2 ++ q :: y.
Proof.
  unfold opening. split.
  - destruct (after _ (drop_space l)) as [r|] eqn:E; [|discriminate]. intros D. apply after_iff in E.
    destruct (drop_split l) as (w1 & H1 & E1 & _). destruct (drop_split r) as (w2 & H2 & E2 & Hq).
    rewrite D in E2, Hq. exists w1, w2. repeat split; auto. rewrite E1, E, E2 at 1. reflexivity.
  - intros (w1 & w2 & H1 & H2 & Hq & ->). rewrite drop_app_blanks by auto.
    replace (drop_space (chars "#include" ++ w2 ++ q :: y)) with (chars "#include" ++ w2 ++ q :: y) by reflexivity.
    rewrite (proj2 (after_iff _ _ _) eq_refl), drop_app_blanks by auto. simpl. rewrite Hq. auto.
Qed.

Lemma nq_all n : Forall (fun a => nq a = true) n <-> ~ In dquote n.
Proof.
  rewrite Forall_forall. split.
  - intros H I. specialize (H _ I). discriminate.
  - intros H a I. destruct (nq a) eqn:E; auto. apply nq_false in E. subst. contradiction.
Qed.

Lemma inc_line_iff l n : inc_line l = Some n <-> quoted l n.
Proof.
  unfold inc_line, on_line, quoted. rewrite inc_head_eq. fold nq. split.
  - destruct (opening l) as [|q y] eqn:O; [discriminate|]. apply opening_iff in O as (w1 & w2 & H1 & H2 & _ & ->).
    destruct (Ascii.eqb_spec q quote) as [->|]; [|discriminate].
    pose proof (span_app nq y) as A. pose proof (span_fst nq y) as F. pose proof (span_snd nq y) as S.
    destruct (span nq y) as [[|a name] [|c rest]]; try discriminate. cbn [fst snd] in *.
    apply nq_false in S. subst c. destruct (forallb is_space rest) eqn:B; [|discriminate]. intros H. inversion H; subst n.
    apply forallb_blanks in B. exists w1, w2, rest. rewrite !blank_blanks. repeat split; auto; try discriminate.
    + apply nq_all. auto.
    + rewrite <- A. reflexivity.
  - intros (w1 & w2 & w3 & H1 & H2 & H3 & N & Q & ->). rewrite blank_blanks in *.
    rewrite (proj2 (opening_iff _ dquote (n ++ [dquote] ++ w3))) by (exists w1, w2; repeat split; auto).
    change (Ascii.eqb dquote quote) with true. cbn iota. cbn [app].
    rewrite (span_ext nq n dquote) by (auto; apply nq_all; auto).
    destruct n; [congruence|]. apply forallb_blanks in H3. rewrite H3. auto.
Qed.

Lemma word_all n : Forall (fun a => is_word a = true) n <-> Forall word_char n.
Proof. split; apply Forall_impl; intros a; apply word_iff. Qed.

Lemma std_line_iff l n : std_line l = Some n <-> angled l n.
Proof.
  unfold std_line, on_line, angled. rewrite std_head_eq. split.
  - destruct (opening l) as [|q y] eqn:O; [discriminate|]. apply opening_iff in O as (w1 & w2 & H1 & H2 & _ & ->).
    destruct (Ascii.eqb_spec q "<"%char) as [->|]; [|discriminate].
    pose proof (span_app is_word y) as A. pose proof (span_fst is_word y) as F.
    destruct (span is_word y) as [[|a name] [|c rest]]; try discriminate. cbn [fst snd] in *.
    destruct (Ascii.eqb_spec c ">"%char) as [->|]; [|discriminate].
    destruct (forallb is_space rest) eqn:B; [|discriminate]. intros H. inversion H; subst n.
    apply forallb_blanks in B. exists w1, w2, rest. rewrite !blank_blanks. repeat split; auto; try discriminate.
    + apply word_all. auto.
    + rewrite <- A. reflexivity.
  - intros (w1 & w2 & w3 & H1 & H2 & H3 & N & Q & ->). rewrite blank_blanks in *.
    rewrite (proj2 (opening_iff _ "<"%char (n ++ s ">" ++ w3))) by (exists w1, w2; repeat split; auto).
    change (Ascii.eqb "<" "<") with true. cbn iota. change (s ">" ++ w3) with (">"%char :: w3).
    rewrite (span_ext is_word n ">"%char) by (auto; apply word_all; auto).
    destruct n; [congruence|]. change (Ascii.eqb ">" ">") with true. cbn iota.
    apply forallb_blanks in H3. rewrite H3. auto.
Qed.

Lemma one_kind l n h : quoted l n -> ~ angled l h.
Proof.
  intros H K. apply inc_line_iff in H. apply std_line_iff in K.
  unfold inc_line, std_line, on_line in *. rewrite inc_head_eq in H. rewrite std_head_eq in K.
  destruct (opening l) as [|q y]; [discriminate|].
  destruct (Ascii.eqb_spec q quote) as [->|]; [|discriminate]. discriminate.
Qed.

Lemma hit_inc l : hit inc_head l = true <-> exists n, quoted l n.
Proof.
  unfold hit. fold inc_line. destruct (inc_line l) as [n|] eqn:E; split; intros H; auto.
  - exists n. apply inc_line_iff. auto.
  - discriminate.
  - destruct H as (n & H). apply inc_line_iff in H. congruence.
Qed.
Lemma hit_std l : hit std_head l = true <-> exists n, angled l n.
Proof.
  unfold hit. fold std_line. destruct (std_line l) as [n|] eqn:E; split; intros H; auto.
  - exists n. apply std_line_iff. auto.
  - discriminate.
  - destruct H as (n & H). apply std_line_iff in H. congruence.
Qed.

Definition saysb (l : str) : bool := vis l && negb (hit inc_head l) && negb (hit std_head l).
Lemma saysb_iff l : saysb l = true <-> says l.
Proof.
  assert (HF : forall b (P : str -> Prop), (b = true <-> exists n, P n) -> (b = false <-> forall n, ~ P n)).
  { intros b P H. split.
    - intros -> n Q. assert (false = true) by (apply H; eauto). discriminate.
    - intros Q. destruct b; auto. destruct (proj1 H eq_refl) as (n & K). exfalso. apply (Q n K). }
  unfold saysb, says. rewrite !andb_true_iff, !negb_true_iff, vis_iff.
  rewrite (HF _ _ (hit_inc l)), (HF _ _ (hit_std l)). tauto.
Qed.

Lemma keeps_filter {A} (P : A -> Prop) p : (forall x, p x = true <-> P x) ->
  forall l r, keeps P l r <-> r = filter p l.
Proof.
  intros H l. induction l as [|x l IH]; intros r; simpl.
  - split; [inversion 1; auto|intros ->; constructor].
  - split.
    + inversion 1; subst.
      * rewrite (proj2 (H x)) by auto. f_equal. apply IH. auto.
      * destruct (p x) eqn:E; [apply H in E; contradiction|]. apply IH. auto.
    + intros ->. destruct (p x) eqn:E.
      * constructor; [apply H; auto|apply IH; auto].
      * constructor; [intros Q; apply H in Q; congruence|apply IH; auto].
Qed.

Lemma filter_and {A} (p q : A -> bool) l : filter (fun x => p x && q x) l = filter q (filter p l).
Proof. induction l as [|x l IH]; simpl; auto. destruct (p x); simpl; [destruct (q x)|]; rewrite IH; auto. Qed.

Lemma blank_no_run l : blanks l -> ~ runs_on l.
Proof.
  intros H (w1 & w2 & r & _ & _ & -> & _). apply Forall_app in H as [_ H]. inversion H; subst. discriminate.
Qed.

Lemma without_lines ls : ls <> [] -> Forall one_line ls -> Forall (fun l => ~ runs_on l) ls ->
  exists ls', without_includes (join ls) = join ls' /\ ls' <> [] /\ Forall one_line ls' /\
    filter vis ls' = filter saysb ls.
Proof.
  intros N O R. destruct (sub_lines inc_head inc_scans (length ls) ls (le_n _) N O R) as (l1 & E1 & N1 & O1 & F1 & I1 & _).
  assert (R1 : Forall (fun l => ~ runs_on l) l1).
  { rewrite Forall_forall in *. intros l Hl. destruct (I1 l Hl); auto using blank_no_run. }
  destruct (sub_lines std_head std_scans (length l1) l1 (le_n _) N1 O1 R1) as (l2 & E2 & N2 & O2 & F2 & _ & _).
  exists l2. unfold without_includes. rewrite E1, E2. repeat split; auto. rewrite F2.
  unfold saysb. rewrite filter_and, (filter_and (fun l => vis l && negb (hit inc_head l))), <- F1. reflexivity.
Qed.

Lemma removed t ls : text_lines t ls -> Forall (fun l => ~ runs_on l) ls ->
  exists ls' r, text_lines (without_includes t) ls' /\ keeps says ls r /\
    keeps (fun l => ~ AmalgamTextSpec.blank l) ls' r.
Proof.
  intros (N & O & ->) R. destruct (without_lines ls N O R) as (ls' & E & N' & O' & F).
  exists ls', (filter saysb ls). repeat split; auto.
  - apply (keeps_filter says saysb saysb_iff). auto.
  - apply (keeps_filter _ vis vis_iff). auto.
Qed.

(** ** Paths *)

Lemma same_iff p : forall q, same p q = true <-> p = q.
Proof.
  induction p as [|a p IH]; intros [|b q]; simpl; split; try discriminate; auto.
  - rewrite andb_true_iff, String.eqb_eq, IH. intros []; congruence.
  - intros H. inversion H; subst. rewrite String.eqb_refl. apply IH. auto.
Qed.
Lemma above_iff p : forall q, above p q = true <-> exists r, r <> [] /\ q = p ++ r.
Proof.
  induction p as [|a p IH]; intros [|b q]; simpl; split; try discriminate; auto.
  - intros (r & N & E). congruence.
  - intros _. exists (b :: q). split; [discriminate|auto].
  - intros (r & N & E). discriminate.
  - rewrite andb_true_iff, String.eqb_eq, IH. intros (-> & r & N & ->). eauto.
  - intros (r & N & E). inversion E; subst. rewrite String.eqb_refl. apply IH. eauto.
Qed.
Lemma is_file_iff d p : is_file d p = true <-> In p (map fst d).
Proof.
  unfold is_file. rewrite existsb_exists, in_map_iff. split.
  - intros (x & I & E). apply same_iff in E. eauto.
  - intros (x & E & I). exists x. rewrite same_iff. auto.
Qed.
Lemma is_dir_iff d p : is_dir d p = true <-> directory d p.
Proof.
  unfold is_dir, directory. rewrite existsb_exists. split.
  - intros (x & I & E). apply above_iff in E as (r & N & E). exists r, (fst x). repeat split; auto. apply in_map. auto.
  - intros (q & r & N & E & I). apply in_map_iff in I as (x & <- & I). exists x. rewrite above_iff. eauto.
Qed.

Lemma walk_iff d cs : forall p q, walk d p cs = Some q <-> leads d p cs q.
Proof.
  induction cs as [|c cs IH]; intros p q; simpl.
  - split; [intros H; inversion H; constructor|inversion 1; auto].
  - split.
    + destruct (is_dir d p) eqn:D; [|discriminate]. apply is_dir_iff in D. rewrite IH. unfold go.
      destruct (String.eqb_spec c "") as [->|N1]; simpl; [intros; apply leads_stay; auto|].
      destruct (String.eqb_spec c ".") as [->|N2]; simpl; [intros; apply leads_stay; auto|].
      destruct (String.eqb_spec c "..") as [->|N3]; [|intros; apply leads_down; auto].
      destruct p as [|a p] using rev_ind; [simpl; intros; apply leads_top; auto|].
      rewrite removelast_last. intros; apply leads_up; auto.
    + intros H. inversion H; subst.
      * rewrite (proj2 (is_dir_iff _ _)) by auto. apply IH. destruct H4 as [->| ->]; auto.
      * rewrite (proj2 (is_dir_iff _ _)) by auto. apply IH. unfold go. simpl. rewrite removelast_last. auto.
      * rewrite (proj2 (is_dir_iff _ _)) by auto. apply IH. auto.
      * rewrite (proj2 (is_dir_iff _ _)) by auto. apply IH. unfold go.
        destruct (String.eqb_spec c ""); [congruence|]. destruct (String.eqb_spec c "."); [congruence|].
        destruct (String.eqb_spec c ".."); [congruence|]. auto.
Qed.
Lemma walk_fold d cs : forall p q, walk d p cs = Some q -> q = fold_left go cs p.
Proof.
  induction cs as [|c cs IH]; intros p q; simpl; [congruence|]. destruct (is_dir d p); [apply IH|discriminate].
Qed.

Lemma parts_some x : parts x <> [].
Proof. destruct x as [|a x]; simpl; [discriminate|]. destruct (Ascii.eqb a "/"); [discriminate|]. destruct (parts x); discriminate. Qed.
Lemma slashed_cons c cs : cs <> [] -> slashed (c :: cs) = chars c ++ "/"%char :: slashed cs.
Proof. destruct cs; [congruence|reflexivity]. Qed.
Lemma parts_text x : Forall (fun c => ~ In "/"%char (s c)) (parts x) /\ chars x = slashed (parts x).
Proof.
  induction x as [|a x [IH1 IH2]]; simpl; [repeat constructor; intros []|].
  pose proof (parts_some x) as N. destruct (Ascii.eqb_spec a "/"%char) as [->|Na].
  - split; [constructor; [intros []|auto]|]. rewrite slashed_cons by auto. unfold chars in *. simpl. congruence.
  - destruct (parts x) as [|c cs]; [congruence|]. inversion IH1; subst. split.
    + constructor; auto. unfold s in *. simpl. intros [Q|Q]; [congruence|auto].
    + unfold chars in *. simpl. rewrite IH2. destruct cs; reflexivity.
Qed.
Lemma parts_app c x : ~ In "/"%char (s c) -> parts (c ++ String "/" x) = c :: parts x.
Proof.
  unfold s. induction c as [|a c IH]; intros H; simpl in *; auto.
  destruct (Ascii.eqb_spec a "/"%char) as [->|]; [tauto|]. rewrite IH by tauto. auto.
Qed.
Lemma parts_one c : ~ In "/"%char (s c) -> parts c = [c].
Proof.
  unfold s. induction c as [|a c IH]; intros H; simpl in *; auto.
  destruct (Ascii.eqb_spec a "/"%char) as [->|]; [tauto|]. rewrite IH by tauto. auto.
Qed.
Lemma parts_slashed cs : cs <> [] -> Forall (fun c => ~ In "/"%char (s c)) cs ->
  parts (string_of_list_ascii (slashed cs)) = cs.
Proof.
  intros N H. induction H as [|c cs H _ IH]; [congruence|]. destruct cs as [|c' cs].
  - simpl. unfold s. rewrite string_of_list_ascii_of_string. apply parts_one. auto.
  - rewrite slashed_cons by discriminate.
    replace (string_of_list_ascii (chars c ++ "/"%char :: slashed (c' :: cs)))
      with (c ++ String "/" (string_of_list_ascii (slashed (c' :: cs))))%string.
    + rewrite parts_app, IH by (auto; discriminate). auto.
    + apply chars_inj. rewrite chars_app, chars_of. unfold chars at 2. simpl list_ascii_of_string. fold (chars (string_of_list_ascii (slashed (c' :: cs)))). rewrite chars_of. auto.
Qed.

Lemma names_iff d dir n q : names d dir n q <->
  finds d dir (string_of_list_ascii n) = true /\ abspath dir (string_of_list_ascii n) = q.
Proof.
  unfold names, finds, abspath. set (x := string_of_list_ascii n). split.
  - intros (cs & N & H & E & I & L). assert (P : parts x = cs) by (unfold x; rewrite E; apply parts_slashed; auto).
    assert (W : walk d (start dir x) (parts x) = Some q).
    { unfold start. rewrite P. apply walk_iff. destruct L as [[[cs' ->] L]|[Nc L]]; auto.
      destruct cs as [|[|] cs]; auto. exfalso. eapply Nc. reflexivity. }
    rewrite W. split; [apply is_file_iff; auto|]. symmetry. eapply walk_fold. eauto.
  - intros [F A]. destruct (walk d _ _) as [p|] eqn:W; [|discriminate].
    pose proof (walk_fold _ _ _ _ W) as E. rewrite A in E. subst p. apply is_file_iff in F.
    destruct (parts_text x) as [P1 P2]. exists (parts x). repeat split; auto using parts_some.
    + rewrite <- P2. unfold x. rewrite chars_of. auto.
    + apply walk_iff in W. unfold start in W. destruct (parts x) as [|[|a c] cs]; [right; split; [discriminate|auto]|left; split; eauto|right; split; [discriminate|auto]].
Qed.

Lemma parts_render p : p <> [] -> Forall component p -> parts (render p) = ""%string :: p.
Proof.
  assert (G : forall c p, component c -> Forall component p -> parts (c ++ render p) = c :: p).
  { intros c p0 Hc H. revert c Hc. induction H as [|b p0 Hb _ IH]; intros c Hc.
    - simpl. replace (c ++ "")%string with c; [apply parts_one; apply Hc|]. clear. induction c; simpl; congruence.
    - simpl render. rewrite parts_app by apply Hc. rewrite IH by auto. auto. }
  intros N H. destruct H as [|c p Hc H]; [congruence|]. simpl. rewrite G by auto. auto.
Qed.
Lemma render_inj p q : p <> [] -> q <> [] -> Forall component p -> Forall component q -> render p = render q -> p = q.
Proof.
  intros Np Nq Hp Hq E. apply (f_equal parts) in E. rewrite !parts_render in E by auto. congruence.
Qed.
Lemma absolute_render p : absolute p = render p.
Proof. induction p as [|c p IH]; simpl; congruence. Qed.

Lemma ends_iff x c : ends x c = true <-> exists f, c = (f ++ x)%string.
Proof.
  unfold ends. destruct (before (chars x) (chars c)) as [r|] eqn:E.
  - apply before_iff in E. split; auto. intros _. exists (string_of_list_ascii r).
    apply chars_inj. rewrite chars_app, chars_of. auto.
  - split; [discriminate|]. intros (f & ->). exfalso. rewrite chars_app in E.
    rewrite (proj2 (before_iff _ _ (chars f))) in E by auto. discriminate.
Qed.
Lemma scanned_iff base p : scanned base p = true <-> looked_at base p.
Proof.
  unfold scanned, looked_at. rewrite andb_true_iff, above_iff, existsb_exists. split.
  - intros ((r & N & ->) & e & He & E). destruct (exists_last N) as (q & c & ->).
    rewrite app_assoc, last_last in E. apply ends_iff in E as (f & ->). exists q, f, e. auto.
  - intros (q & f & e & -> & He). split.
    + exists (q ++ [(f ++ e)%string]). split; auto. destruct q; discriminate.
    + exists e. split; auto. rewrite app_assoc, last_last. apply ends_iff. eauto.
Qed.

(** ** The graph *)

Lemma in_sound d p : sound d -> In p (map fst d) -> p <> [] /\ Forall component p.
Proof. intros [_ H]. apply H. Qed.
Lemma inj_in d p q : sound d -> In p (map fst d) -> In q (map fst d) -> render p = render q -> p = q.
Proof.
  intros D Hp Hq. destruct (in_sound d p D Hp), (in_sound d q D Hq). apply render_inj; auto.
Qed.
Lemma source_keys base d : map fst (source_of base d) = map render (map fst d).
Proof. unfold source_of. rewrite !map_map. reflexivity. Qed.
Lemma nodup_map {A B} (f : A -> B) l : NoDup l -> (forall x y, In x l -> In y l -> f x = f y -> x = y) -> NoDup (map f l).
Proof.
  intros D H. induction D as [|p l Hp D IH]; simpl; constructor.
  - intros I. apply in_map_iff in I as (q & E & I). apply H in E; simpl; auto. subst. contradiction.
  - apply IH. intros q r Hq Hr. apply H; simpl; auto.
Qed.
Lemma source_nodup base d : sound d -> NoDup (map fst (source_of base d)).
Proof.
  intros D. rewrite source_keys. assert (H : forall p q, In p (map fst d) -> In q (map fst d) -> render p = render q -> p = q).
  { intros p q. apply inj_in. auto. }
  destruct D as [D _]. apply nodup_map; auto.
Qed.
Lemma in_source base d x ls : In (x, ls) (source_of base d) <->
  exists p t, In (p, t) d /\ x = render p /\ ls = lines_of base d (p, t).
Proof.
  unfold source_of. rewrite in_map_iff. split.
  - intros ([p t] & E & I). inversion E. subst. exists p, t. auto.
  - intros (p & t & I & -> & ->). exists (p, t). auto.
Qed.

Lemma in_kind_inc d dir l y : In (LInc y) (kind d dir l) <->
  exists n q, quoted l n /\ names d dir n q /\ y = render q.
Proof.
  unfold kind. destruct (inc_line l) as [n|] eqn:E.
  - apply inc_line_iff in E. destruct (finds d dir (string_of_list_ascii n)) eqn:F; simpl; split.
    + intros [H|[]]. inversion H. eexists n, _. rewrite names_iff. auto.
    + intros (n' & q & Q & H & ->). apply inc_line_iff in E, Q. assert (n' = n) by congruence. subst n'.
      apply names_iff in H as [_ <-]. auto.
    + intros [].
    + intros (n' & q & Q & H & ->). apply inc_line_iff in E, Q. assert (n' = n) by congruence. subst n'.
      apply names_iff in H as [F' _]. congruence.
  - split.
    + destruct (std_line l); simpl; intros [H|[]]; discriminate.
    + intros (n & q & Q & _). apply inc_line_iff in Q. congruence.
Qed.
Lemma in_kind_std d dir l h : In (LStd h) (kind d dir l) <-> angled l (s h).
Proof.
  unfold kind. destruct (inc_line l) as [n|] eqn:E.
  - apply inc_line_iff in E. split.
    + cbv zeta. destruct (finds _ _ _); simpl; [intros [H|[]]; discriminate|intros []].
    + intros H. exfalso. eapply one_kind; eauto.
  - destruct (std_line l) as [x|] eqn:F; simpl; split.
    + intros [H|[]]. inversion H. unfold s. rewrite list_ascii_of_string_of_list_ascii. apply std_line_iff. auto.
    + intros H. apply std_line_iff in H. left. f_equal. assert (x = s h) by congruence. subst x.
      apply string_of_list_ascii_of_string.
    + intros [H|[]]. discriminate.
    + intros H. apply std_line_iff in H. congruence.
Qed.
Lemma in_only_code l k : In k (only_code l) -> exists t, k = LCode t.
Proof.
  unfold only_code. destruct (inc_line l); [intros []|]. destruct (std_line l); [intros []|].
  intros [<-|[]]. eauto.
Qed.

Lemma direct_files d a b : AmalgamTextSpec.direct d a b -> In a (map fst d) /\ In b (map fst d).
Proof.
  intros (dir & f & t & ls & l & n & _ & I & _ & _ & _ & cs & _ & _ & _ & J & _).
  split; auto. apply in_map_iff. exists (a, t). auto.
Qed.

(** Computing it. *)
Lemma direct_iff d a b : sound d -> AmalgamTextSpec.direct d a b <->
  exists t l n, In (a, t) d /\ In l (lines t) /\ inc_line l = Some n /\
    finds d (removelast a) (string_of_list_ascii n) = true /\ abspath (removelast a) (string_of_list_ascii n) = b.
Proof.
  intros D. split.
  - intros (dir & f & t & ls & l & n & -> & I & T & Hl & Q & Hn). apply text_lines_eq in T. subst ls.
    exists t, l, n. rewrite removelast_last. apply names_iff in Hn. rewrite inc_line_iff. tauto.
  - intros (t & l & n & I & Hl & Q & F & A). assert (Np : a <> []) by (apply (in_sound d a D); apply in_map_iff; exists (a, t); auto).
    destruct (exists_last Np) as (dir & f & ->). rewrite removelast_last in *. exists dir, f, t, (lines t), l, n.
    rewrite names_iff, <- inc_line_iff. repeat split; auto; apply lines_text.
Qed.
Definition climbs (d : disk) (rank : path -> nat) : bool :=
  forallb (fun f => forallb (fun l => match inc_line l with
    | Some n => negb (finds d (removelast (fst f)) (string_of_list_ascii n)) ||
                Nat.ltb (rank (abspath (removelast (fst f)) (string_of_list_ascii n))) (rank (fst f))
    | None => true
    end) (lines (snd f))) d.
Lemma climbs_acyclic d rank : sound d -> climbs d rank = true -> AmalgamTextSpec.acyclic d.
Proof.
  intros D C. assert (G : forall a b, clos_trans _ (AmalgamTextSpec.direct d) a b -> rank b < rank a).
  { intros a b H. induction H as [a b H|a b c _ H1 _ H2]; [|lia].
    apply direct_iff in H as (t & l & n & I & Hl & Q & F & <-); auto.
    unfold climbs in C. rewrite forallb_forall in C. specialize (C _ I). cbn [fst snd] in C.
    rewrite forallb_forall in C. specialize (C _ Hl). rewrite Q, F in C. simpl in C. apply Nat.ltb_lt. auto. }
  intros a H. apply G in H. lia.
Qed.

Lemma direct_fwd base d x y : sound d -> AmalgamSpec.direct (source_of base d) x y ->
  exists a b, x = render a /\ y = render b /\ looked_at base a /\ AmalgamTextSpec.direct d a b.
Proof.
  intros D (ls & I & J & _). apply in_source in I as (p & t & I & -> & ->).
  unfold lines_of in J. apply in_flat_map in J as (l & Hl & J). cbn [fst snd] in *.
  destruct (scanned base p) eqn:Sc; [|apply in_only_code in J as (? & ?); discriminate].
  apply in_kind_inc in J as (n & q & Q & Hn & ->).
  assert (Np : p <> []) by (apply (in_sound d p D); apply in_map_iff; exists (p, t); auto).
  destruct (exists_last Np) as (dir & f & ->). rewrite removelast_last in Hn.
  exists (dir ++ [f]), q. repeat split; auto; [apply scanned_iff; auto|].
  exists dir, f, t, (lines t), l, n. repeat split; auto; apply lines_text.
Qed.
Lemma direct_bwd base d a b : looked_at base a -> AmalgamTextSpec.direct d a b ->
  AmalgamSpec.direct (source_of base d) (render a) (render b).
Proof.
  intros La H. pose proof (direct_files d a b H) as [_ Ib].
  destruct H as (dir & f & t & ls & l & n & -> & I & Tl & Hl & Q & Hn).
  apply text_lines_eq in Tl. subst ls. exists (lines_of base d (dir ++ [f], t)). split; [|split].
  - apply in_source. exists (dir ++ [f]), t. auto.
  - unfold lines_of. cbn [fst snd]. apply scanned_iff in La. rewrite La, removelast_last.
    apply in_flat_map. exists l. split; auto. apply in_kind_inc. exists n, b. auto.
  - rewrite source_keys. apply in_map. auto.
Qed.

Lemma needs_files d e p : In e (map fst d) -> AmalgamTextSpec.needs d e p -> In p (map fst d).
Proof. intros H K. induction K; auto. eapply direct_files; eauto. Qed.

Lemma needs_fwd base d e x : sound d -> In e (map fst d) -> AmalgamSpec.needs (source_of base d) (render e) x ->
  exists p, x = render p /\ AmalgamTextSpec.needs d e p.
Proof.
  intros D He H. apply clos_rt_rtn1 in H. induction H as [|y z Hyz _ (p & -> & Hp)].
  - exists e. split; auto. apply rt_refl.
  - apply direct_fwd in Hyz as (a & b & E & -> & _ & Hab); auto. exists b. split; auto.
    apply inj_in with (d := d) in E; auto.
    + subst a. eapply rt_trans; [exact Hp|apply rt_step; auto].
    + eapply needs_files; eauto.
    + apply (proj1 (direct_files _ _ _ Hab)).
Qed.
Lemma needs_bwd base d e p : (forall q, AmalgamTextSpec.needs d e q -> looked_at base q) -> AmalgamTextSpec.needs d e p ->
  AmalgamSpec.needs (source_of base d) (render e) (render p).
Proof.
  intros L H. apply clos_rt_rtn1 in H. induction H as [|y z Hyz Hy IH]; [apply rt_refl|].
  eapply rt_trans; [exact IH|]. apply rt_step, direct_bwd; auto. apply L. apply clos_rtn1_rt. auto.
Qed.
Lemma acyclic_source base d : sound d -> AmalgamTextSpec.acyclic d -> AmalgamSpec.acyclic (source_of base d).
Proof.
  intros D A x H. assert (G : forall y z, AmalgamSpec.by_way (source_of base d) y z ->
    exists a b, y = render a /\ z = render b /\ clos_trans _ (AmalgamTextSpec.direct d) a b /\ In a (map fst d) /\ In b (map fst d)).
  { intros y z K. induction K as [y z K|y z u _ (a & b & -> & -> & K1 & I1 & I2) _ (b' & c & E & -> & K2 & I3 & I4)].
    - apply direct_fwd in K as (a & b & -> & -> & _ & K); auto. exists a, b.
      pose proof (direct_files d a b K) as []. repeat split; auto. apply t_step. auto.
    - apply inj_in with (d := d) in E; auto. subst b'. exists a, c. repeat split; auto. eapply t_trans; eauto. }
  apply G in H as (a & b & E1 & E2 & K & Ia & Ib). assert (a = b) by (apply inj_in with (d := d); auto; congruence).
  subst b. apply (A a K).
Qed.

(** ** The text *)

Lemma body_app a b : join (a ++ [[]]) ++ join (b ++ [[]]) = join ((a ++ b) ++ [[]]).
Proof.
  destruct a as [|x a]; [reflexivity|]. rewrite <- app_assoc.
  assert (Nb : b ++ [[]] <> []) by (destruct b; discriminate).
  rewrite (join_app (x :: a) [[]]), (join_app (x :: a) (b ++ [[]])) by (auto; discriminate).
  rewrite <- app_assoc. reflexivity.
Qed.
Lemma body_flat {A} (f : A -> str) (g : A -> list str) l :
  (forall x, In x l -> f x = join (g x ++ [[]])) -> flat_map f l = join (flat_map g l ++ [[]]).
Proof.
  induction l as [|x l IH]; intros H; simpl; auto.
  rewrite (H x (or_introl eq_refl)), IH by (intros y Hy; apply H; right; auto). apply body_app.
Qed.

Lemma relpath_below base q : relpath base (base ++ q) = q.
Proof. induction base as [|b base IH]; simpl; [auto|]. rewrite String.eqb_refl. auto. Qed.
Lemma concat_slashed q : chars (String.concat "/" q) = slashed q.
Proof.
  induction q as [|c q IH]; auto. destruct q as [|c' q]; auto. rewrite slashed_cons by discriminate.
  change (String.concat "/" (c :: c' :: q)) with (c ++ "/" ++ String.concat "/" (c' :: q))%string.
  rewrite !chars_app, IH. reflexivity.
Qed.
Lemma shown_below base q : shown base (base ++ q) = slashed q.
Proof. unfold shown. rewrite relpath_below. apply concat_slashed. Qed.
Lemma slashed_one q : Forall component q -> one_line (slashed q).
Proof.
  induction 1 as [|c q Hc _ IH]; [intros []|]. destruct q as [|c' q]; [apply Hc|].
  rewrite slashed_cons by discriminate. apply one_app. split; [apply Hc|]. apply one_cons. split; [discriminate|auto].
Qed.

Lemma filter_key {A} (k : A -> string) d x : NoDup (map k d) -> In x d ->
  filter (fun y => String.eqb (k y) (k x)) d = [x].
Proof.
  induction d as [|y d IH]; intros D I; [destruct I|]. inversion D; subst. simpl. destruct I as [->|I].
  - rewrite String.eqb_refl. f_equal. clear IH D H2. induction d as [|z d IH]; simpl; auto.
    destruct (String.eqb_spec (k z) (k x)) as [E|E]; [exfalso; apply H1; simpl; auto|]. apply IH. intros Q. apply H1. simpl; auto.
  - destruct (String.eqb_spec (k y) (k x)) as [E|E]; [|auto]. exfalso. apply H1. rewrite E. apply in_map. auto.
Qed.
Lemma named_one d p t : sound d -> In (p, t) d -> named d (render p) = [(p, t)].
Proof.
  intros D I. unfold named. apply (filter_key (fun x => render (fst x)) d (p, t)); auto.
  pose proof (source_nodup [] d D) as N. rewrite source_keys, map_map in N. exact N.
Qed.

Definition std_l (h : ident) : str := s "#include <" ++ s h ++ s ">".
Definition block_l (base : place) (f : place * str) : list str :=
  [[]; s "// Begin " ++ shown base (fst f)] ++ lines (without_includes (snd f)) ++ [s "// End " ++ shown base (fst f)].

Lemma std_text_join h : std_text h = join ([std_l h] ++ [[]]).
Proof. unfold std_text, std_l. simpl join. rewrite <- !app_assoc. reflexivity. Qed.
Lemma file_text_join base f : file_text base f = join (block_l base f ++ [[]]).
Proof.
  unfold file_text, block_l. pose proof (lines_text (without_includes (snd f))) as (N & _ & E).
  rewrite <- !app_assoc.
  rewrite join_app; [|discriminate|intros Q; apply (f_equal (@List.length str)) in Q; rewrite !app_length in Q; simpl in Q; lia].
  rewrite join_app by (auto; discriminate). rewrite <- E. simpl. rewrite <- ?app_assoc. reflexivity.
Qed.

Lemma vis_head a r : is_space a = false -> vis (a :: r) = true.
Proof. intros H. unfold vis. simpl. rewrite H. auto. Qed.
Lemma filter_all {A} (p : A -> bool) l : (forall x, In x l -> p x = true) -> filter p l = l.
Proof.
  induction l as [|x l IH]; intros H; simpl; auto.
  rewrite (H x (or_introl eq_refl)), IH by (intros y Hy; apply H; right; auto). auto.
Qed.

Lemma without_filter t : (forall l, In l (lines t) -> ~ runs_on l) ->
  filter vis (lines (without_includes t)) = filter saysb (lines t).
Proof.
  intros R. destruct (lines_text t) as (N & O & E).
  destruct (without_lines (lines t) N O) as (ls' & E' & N' & O' & F); [apply Forall_forall; auto|].
  rewrite <- F, <- (lines_join ls'), <- E', <- E by auto. reflexivity.
Qed.

Lemma word_line h l : angled l (s h) -> one_line (s h).
Proof.
  intros (w1 & w2 & w3 & _ & _ & _ & _ & W & _) I. rewrite Forall_forall in W. specialize (W _ I).
  apply word_iff in W. discriminate.
Qed.

Lemma amalgamate_eq base d e : sound d -> In e (map fst d) -> looked_at base e ->
  exists std bs, amalgam (source_of base d) (render e) = Some (Single std bs) /\
  amalgamate base d (render e) = Some (Wrote (flat_map std_text std ++
      flat_map (fun f => flat_map (file_text base) (named d f)) (map fst bs))).
Proof.
  intros D He Le. destruct (AmalgamFacts.amalgam_total (source_of base d) (render e) (source_nodup base d D)) as (o & E & B).
  destruct o as [|std bs].
  - exfalso. apply (proj1 B eq_refl). rewrite source_keys. apply in_map. auto.
  - exists std, bs. split; auto. unfold amalgamate. rewrite E.
    rewrite (proj2 (existsb_exists _ _)); auto. apply in_map_iff in He as (f & <- & I). exists f. split; auto.
    apply scanned_iff in Le. rewrite Le, String.eqb_refl. auto.
Qed.

Lemma entry_iff base d x : sound d -> exists o, amalgamate base d x = Some o /\
  (o = Exit1 <-> ~ exists p, In p (map fst d) /\ looked_at base p /\ x = absolute p).
Proof.
  intros D. destruct (existsb (fun f => scanned base (fst f) && String.eqb (render (fst f)) x) d) eqn:X.
  - pose proof X as Y. apply existsb_exists in Y as ([p t] & I & Y). apply andb_true_iff in Y as [Y1 Y2].
    apply String.eqb_eq in Y2. cbn [fst] in *. subst x. apply scanned_iff in Y1.
    assert (Ip : In p (map fst d)) by (apply in_map_iff; exists (p, t); auto).
    destruct (amalgamate_eq base d p D Ip Y1) as (std & bs & _ & E). eexists. split; [exact E|]. split; [discriminate|].
    intros N. exfalso. apply N. exists p. split; [auto|split; [auto|symmetry; apply absolute_render]].
  - unfold amalgamate. rewrite X. eexists. split; [reflexivity|]. split; auto. intros _ (p & I & L & ->).
    apply in_map_iff in I as ([q t] & E & I). cbn [fst] in E. subst q.
    assert (Z : existsb (fun f => scanned base (fst f) && String.eqb (render (fst f)) (absolute p)) d = true); [|congruence].
    apply existsb_exists. exists (p, t). split; auto. cbn [fst]. apply scanned_iff in L.
    rewrite L. apply String.eqb_eq. symmetry. apply absolute_render.
Qed.

Lemma header base d e : sound d -> AmalgamTextSpec.acyclic d -> In e (map fst d) ->
  (forall p, AmalgamTextSpec.needs d e p -> looked_at base p) ->
  (forall p t ls l, AmalgamTextSpec.needs d e p -> In (p, t) d -> text_lines t ls -> In l ls -> ~ runs_on l) ->
  exists order std bs out ls, amalgamate base d (absolute e) = Some (Wrote out) /\ text_lines out ls /\
    NoDup order /\ (forall p, In p order <-> AmalgamTextSpec.needs d e p) /\
    (forall l a r b, order = l ++ a :: r -> AmalgamTextSpec.direct d a b -> In b l) /\
    StronglySorted (fun a b => String.compare a b = Lt) std /\
    (forall h, In h std <-> exists p t ls l, In (p, t) d /\ looked_at base p /\ text_lines t ls /\ In l ls /\ angled l (s h)) /\
    Forall2 (block_of d base) order bs /\
    keeps (fun l => ~ AmalgamTextSpec.blank l) ls (map (fun h => s "#include <" ++ s h ++ s ">") std ++ concat bs).
Proof.
  intros D A He L R. replace (absolute e) with (render e) by (symmetry; apply absolute_render).
  destruct (amalgamate_eq base d e D He (L e (rt_refl _ _ _))) as (std & bs & E & EA).
  pose proof (source_nodup base d D) as N.
  destruct (AmalgamFacts.amalgam_acyclic _ _ _ _ N (acyclic_source base d D A) E) as (N1 & I1 & O1 & _).
  destruct (AmalgamFacts.amalgam_std _ _ _ _ E) as (S1 & S2).
  set (order := map (fun f => tl (parts f)) (map fst bs)).
  assert (Hn : forall f, In f (map fst bs) <-> exists p, f = render p /\ AmalgamTextSpec.needs d e p).
  { intros f. rewrite I1. split; [apply needs_fwd; auto|]. intros (p & -> & Hp). apply needs_bwd; auto. }
  assert (Un : forall p, AmalgamTextSpec.needs d e p -> tl (parts (render p)) = p).
  { intros p Hp. apply needs_files in Hp; auto. destruct (in_sound d p D Hp). rewrite parts_render by auto. auto. }
  assert (EO : map fst bs = map render order).
  { unfold order. rewrite map_map. rewrite <- (map_id (map fst bs)) at 1. apply map_ext_in. intros f Hf.
    apply Hn in Hf as (p & -> & Hp). rewrite Un; auto. }
  assert (IO : forall p, In p order <-> AmalgamTextSpec.needs d e p).
  { intros p. unfold order. rewrite in_map_iff. split.
    - intros (f & <- & Hf). apply Hn in Hf as (q & -> & Hq). rewrite Un; auto.
    - intros Hp. exists (render p). split; [apply Un; auto|]. apply Hn. eauto. }
  assert (Hd : forall p, In p order -> exists t, In (p, t) d).
  { intros p Hp. apply IO, needs_files in Hp; auto. apply in_map_iff in Hp as ([q t] & Q & I). simpl in Q. subst q. eauto. }
  assert (HS : forall h, In h std <-> exists p t ls l, In (p, t) d /\ looked_at base p /\ text_lines t ls /\ In l ls /\ angled l (s h)).
  { intros h. rewrite S2. split.
    - intros (f & ls & I & J). apply in_source in I as (p & t & I & -> & ->). unfold lines_of in J.
      apply in_flat_map in J as (l & Hl & J). cbn [fst snd] in *.
      destruct (scanned base p) eqn:Sc; [|apply in_only_code in J as (? & ?); discriminate].
      apply in_kind_std in J. exists p, t, (lines t), l. apply scanned_iff in Sc. repeat split; auto; apply lines_text.
    - intros (p & t & ls & l & I & Lp & Tl & Hl & J). apply text_lines_eq in Tl. subst ls.
      exists (render p), (lines_of base d (p, t)). split; [apply in_source; exists p, t; auto|].
      unfold lines_of. apply in_flat_map. exists l. split; auto. cbn [fst snd]. apply scanned_iff in Lp. rewrite Lp.
      apply in_kind_std. auto. }
  set (cont := fun p => flat_map (block_l base) (named d (render p))).
  set (vb := fun p => filter vis (cont p)).
  assert (EV : forall p t, In p order -> In (p, t) d ->
    vb p = (s "// Begin " ++ shown base p) :: filter saysb (lines t) ++ [s "// End " ++ shown base p]).
  { intros p t Hp I. unfold vb, cont. rewrite (named_one d p t) by auto. cbn [flat_map]. rewrite app_nil_r. unfold block_l. cbn [fst snd].
    rewrite !filter_app, (without_filter t).
    - reflexivity.
    - intros l Hl. apply (R p t (lines t) l); auto; [apply IO; auto|apply lines_text]. }
  assert (BL : forall p, In p order -> Forall one_line (cont p)).
  { intros p Hp. destruct (Hd p Hp) as (t & I). unfold cont. rewrite (named_one d p t) by auto. cbn [flat_map]. rewrite app_nil_r.
    unfold block_l. cbn [fst snd].
    assert (Os : one_line (shown base p)).
    { pose proof (L p (proj1 (IO p) Hp)) as (q & f & ex & Ep & _). rewrite Ep, shown_below. apply slashed_one.
      assert (C : Forall component p) by (apply (in_sound d p D); apply in_map_iff; exists (p, t); auto).
      rewrite Ep in C. apply Forall_app in C as [_ C]. exact C. }
    apply Forall_app. split; [constructor; [intros []|constructor; [|constructor]]|apply Forall_app; split; [apply lines_text|constructor; [|constructor]]].
    - apply one_app. split; auto. unfold one_line. simpl. intuition discriminate.
    - apply one_app. split; auto. unfold one_line. simpl. intuition discriminate. }
  set (ls := (flat_map (fun h => [std_l h]) std ++ flat_map cont order) ++ [[]]).
  exists order, std, (map vb order), (join ls), ls. split; [|split; [|split; [|split; [|split; [|split; [|split; [|split]]]]]]]; auto.
  - rewrite EA. f_equal. f_equal. unfold ls. rewrite <- body_app. f_equal.
    + apply body_flat. intros h _. apply std_text_join.
    + rewrite EO. rewrite (flat_map_concat_map _ (map render order)), map_map, <- flat_map_concat_map.
      apply body_flat. intros p Hp. destruct (Hd p Hp) as (t & I). unfold cont. rewrite (named_one d p t) by auto.
      cbn [flat_map]. rewrite !app_nil_r. apply file_text_join.
  - split; [|split; auto].
    + unfold ls. intros Q. apply app_eq_nil in Q as [_ Q]. discriminate Q.
    + unfold ls. repeat (apply Forall_app; split).
      * apply Forall_forall. intros l Hl. apply in_flat_map in Hl as (h & Hh & [<-|[]]). apply HS in Hh as (p & t & ls' & l & _ & _ & _ & _ & Ha).
        unfold std_l. apply one_app. split; [unfold one_line; simpl; intuition discriminate|]. apply one_app. split; [eapply word_line; eauto|].
        unfold one_line; simpl; intuition discriminate.
      * apply Forall_forall. intros l Hl. apply in_flat_map in Hl as (p & Hp & Hl). specialize (BL p Hp). rewrite Forall_forall in BL. auto.
      * constructor; [intros []|constructor].
  - rewrite EO in N1. apply NoDup_map_inv in N1. auto.
  - intros l a r b Eo Dab. assert (Eb : map fst bs = map render l ++ render a :: map render r) by (rewrite EO, Eo, map_app; reflexivity).
    assert (Ha : AmalgamTextSpec.needs d e a) by (apply IO; rewrite Eo; apply in_or_app; right; left; auto).
    pose proof (O1 _ _ _ (render b) Eb (direct_bwd base d a b (L a Ha) Dab)) as Hb. apply in_map_iff in Hb as (c & Ec & Hc).
    assert (c = b); [|subst; auto]. apply inj_in with (d := d); auto.
    + apply needs_files with (e := e); auto. apply IO. rewrite Eo. apply in_or_app. auto.
    + apply (proj2 (direct_files _ _ _ Dab)).
  - clearbody order. assert (Q : forall p, In p order -> block_of d base p (vb p)).
    { intros p Hp. destruct (Hd p Hp) as (t & I). exists t, (lines t), (filter saysb (lines t)), (shown base p).
      split; auto. split; [apply lines_text|]. split; [apply (keeps_filter says saysb saysb_iff); auto|].
      split; [intros q ->; apply shown_below|]. apply EV; auto. }
    clear - Q. induction order as [|p order IH]; simpl; constructor; [apply Q; simpl; auto|]. apply IH. intros p0 Hp0. apply Q. simpl. auto.
  - apply (keeps_filter _ vis vis_iff). unfold ls. rewrite !filter_app. simpl (filter vis [[]]). rewrite app_nil_r. f_equal.
    + clear. induction std as [|h std IH]; simpl; auto. rewrite <- IH. reflexivity.
    + unfold vb. clear. induction order as [|p o IH]; simpl; auto. rewrite filter_app, IH. reflexivity.
Qed.

(** ** The order in which the files are found does not matter *)

Lemma each_ext {T} (f g : ident -> T -> option T) l : (forall x t, f x t = g x t) -> forall t, each f l t = each g l t.
Proof. intros H. induction l as [|x l IH]; intros t; simpl; auto. rewrite H. destruct (g x t); auto. Qed.

Section Ext.
Variables g g' : graph.
Hypothesis HI : forall f, includes g f = includes g' f.
Lemma transitive_ext n : forall f v, Amalgam.transitive n g f v = Amalgam.transitive n g' f v.
Proof using HI.
  induction n as [|n IH]; intros f v; simpl; auto. destruct (memb f v); auto. rewrite HI. apply each_ext.
  intros x [a b]. simpl. rewrite IH. auto.
Qed.
Lemma visit_ext n : forall f v, visit n g f v = visit n g' f v.
Proof using HI.
  induction n as [|n IH]; intros f v; simpl; auto. destruct (memb f (fst v)); auto. rewrite HI.
  rewrite (each_ext (visit n g) (visit n g')) by auto. auto.
Qed.
End Ext.

Lemma reduce_includes g h r : reduce g h = Some r -> length r = length h /\ forall f, includes r f =
  match covered g (includes h f) with Some t => filter (fun i => negb (memb i t)) (includes h f) | None => [] end.
Proof.
  revert r. induction h as [|[x incs] h IH]; simpl; intros r.
  - intros E. inversion E. auto.
  - destruct (covered g incs) as [t|] eqn:C; [|discriminate]. destruct (reduce g h) as [r'|]; [|discriminate].
    intros E. inversion E. destruct (IH r' eq_refl) as [Hl Hi]. simpl. split; auto. intros f.
    destruct (String.eqb x f); auto. rewrite C. auto.
Qed.

Lemma memb_perm f l l' : Permutation l l' -> memb f l = memb f l'.
Proof.
  intros H. assert (E : In f l <-> In f l') by (split; apply Permutation_in; auto using Permutation_sym).
  destruct (memb f l) eqn:A, (memb f l') eqn:B; auto.
  - apply ReadFacts.memb_In in A. apply AmalgamFacts.memb_false in B. tauto.
  - apply ReadFacts.memb_In in B. apply AmalgamFacts.memb_false in A. tauto.
Qed.
Lemma text_none src f : ~ In f (map fst src) -> Amalgam.text src f = [].
Proof.
  induction src as [|[x l] src IH]; simpl; auto. intros H. destruct (String.eqb_spec x f); [tauto|]. auto.
Qed.
Lemma text_perm src src' f : NoDup (map fst src) -> Permutation src src' -> Amalgam.text src f = Amalgam.text src' f.
Proof.
  intros D P. assert (D' : NoDup (map fst src')) by (eapply Permutation_NoDup; [apply Permutation_map; exact P|auto]).
  destruct (in_dec String.string_dec f (map fst src)) as [H|H].
  - apply AmalgamFacts.text_of in H. symmetry. apply AmalgamFacts.text_in; auto. eapply Permutation_in; eauto.
  - rewrite !text_none; auto. intros Q. apply H. eapply Permutation_in; [apply Permutation_map, Permutation_sym; exact P|auto].
Qed.

Lemma sorted_unique (l : list string) : forall l', StronglySorted (fun a b => String.compare a b = Lt) l ->
  StronglySorted (fun a b => String.compare a b = Lt) l' -> (forall x, In x l <-> In x l') -> l = l'.
Proof.
  assert (IR : forall x, String.compare x x <> Lt).
  { intros x. pose proof (String.compare_antisym x x). destruct (String.compare x x); simpl in *; congruence. }
  assert (AS : forall x y, String.compare x y = Lt -> String.compare y x <> Lt).
  { intros x y H. rewrite String.compare_antisym, H. discriminate. }
  induction l as [|a l IH]; intros [|b l'] S S' H; auto.
  - exfalso. apply (proj2 (H b)). left; auto.
  - exfalso. apply (proj1 (H a)). left; auto.
  - inversion S as [|? ? S1 F1]; subst. inversion S' as [|? ? S2 F2]; subst. rewrite Forall_forall in F1, F2.
    assert (a = b).
    { destruct (proj1 (H a) (or_introl eq_refl)) as [E|E]; [congruence|].
      destruct (proj2 (H b) (or_introl eq_refl)) as [E'|E']; [congruence|].
      exfalso. apply (AS a b (F1 b E') (F2 a E)). }
    subst b. f_equal. apply IH; auto. intros x. split; intros Hx.
    + destruct (proj1 (H x) (or_intror Hx)) as [E|E]; auto. subst x. exfalso. apply (IR a). apply F1; auto.
    + destruct (proj2 (H x) (or_intror Hx)) as [E|E]; auto. subst x. exfalso. apply (IR a). apply F2; auto.
Qed.

Lemma amalgam_perm src src' e : NoDup (map fst src) -> Permutation src src' -> amalgam src e = amalgam src' e.
Proof.
  intros D P. assert (PF : forall f, isfile src f = isfile src' f).
  { intros f. apply memb_perm, Permutation_map. auto. }
  assert (HI : forall f, includes (graph_of src) f = includes (graph_of src') f).
  { intros f. unfold graph_of. rewrite !AmalgamFacts.graph_includes, (text_perm src src') by auto. apply filter_ext. auto. }
  assert (HL : length (graph_of src) = length (graph_of src')).
  { unfold graph_of. rewrite !map_length. apply Permutation_length. auto. }
  assert (HC : forall l, covered (graph_of src) l = covered (graph_of src') l).
  { intros l. unfold covered, depth. rewrite HL. apply each_ext. intros x t. rewrite (transitive_ext _ _ HI). auto. }
  unfold amalgam. rewrite <- PF. destruct (negb (isfile src e)); auto.
  destruct (AmalgamFacts.reduce_ok (graph_of src) (graph_of src)) as (r & E & _).
  destruct (AmalgamFacts.reduce_ok (graph_of src') (graph_of src')) as (r' & E' & _). rewrite E, E'.
  destruct (reduce_includes _ _ _ E) as [L1 I1]. destruct (reduce_includes _ _ _ E') as [L2 I2].
  assert (T : topological_sort r e = topological_sort r' e).
  { unfold topological_sort, depth. rewrite L1, L2, HL.
    rewrite (visit_ext r r'); auto. intros f. rewrite I1, I2, HI, HC. auto. }
  rewrite T. destruct (topological_sort r' e) as [o|]; auto. f_equal. f_equal.
  - destruct (AmalgamFacts.sorted_set_ok (all_std src)) as [S1 M1]. destruct (AmalgamFacts.sorted_set_ok (all_std src')) as [S2 M2].
    apply sorted_unique; auto. intros x. rewrite M1, M2. unfold all_std.
    split; apply Permutation_in; [|apply Permutation_sym]; apply Permutation_flat_map; auto.
  - apply map_ext. intros f. unfold Amalgam.block. rewrite (text_perm src src') by auto. auto.
Qed.

Lemma existsb_perm {A} (p : A -> bool) l l' : Permutation l l' -> existsb p l = existsb p l'.
Proof.
  induction 1; simpl; auto; [congruence| |congruence]. destruct (p x), (p y); auto.
Qed.
Lemma filter_perm {A} (p : A -> bool) l l' : Permutation l l' -> Permutation (filter p l) (filter p l').
Proof.
  induction 1; simpl; auto.
  - destruct (p x); auto.
  - destruct (p x), (p y); auto. apply perm_swap.
  - eapply perm_trans; eauto.
Qed.

Lemma any_order base d d' x : sound d -> Permutation d d' -> amalgamate base d x = amalgamate base d' x.
Proof.
  intros D P. assert (W : forall cs p, walk d p cs = walk d' p cs).
  { induction cs as [|c cs IH]; intros p; simpl; auto. unfold is_dir. rewrite (existsb_perm _ _ _ P), IH. auto. }
  assert (K : forall f, lines_of base d f = lines_of base d' f).
  { intros f. unfold lines_of. apply flat_map_ext. intros l. destruct (scanned base (fst f)); auto.
    unfold kind. destruct (inc_line l); auto. unfold finds. rewrite W. destruct (walk d' _ _); auto.
    unfold is_file. rewrite (existsb_perm _ _ _ P). auto. }
  assert (PS : Permutation (source_of base d) (source_of base d')).
  { unfold source_of. rewrite (map_ext _ (fun f => (render (fst f), lines_of base d' f))) by (intros f; rewrite K; auto).
    apply Permutation_map. auto. }
  unfold amalgamate. rewrite (existsb_perm _ _ _ P). destruct (negb _); auto.
  rewrite (amalgam_perm _ _ x (source_nodup base d D) PS). destruct (amalgam (source_of base d') x) as [[|std bs]|] eqn:E; auto.
  f_equal. f_equal. f_equal. apply flat_map_ext. intros f.
  assert (PN : Permutation (named d f) (named d' f)) by (apply filter_perm; auto).
  destruct (in_dec String.string_dec f (map fst (source_of base d))) as [H|H].
  - rewrite source_keys, map_map in H. apply in_map_iff in H as ([p t] & <- & I). cbn [fst] in *.
    rewrite (named_one d p t) in * by auto. apply Permutation_length_1_inv in PN. rewrite PN. auto.
  - assert (Z : named d f = []).
    { unfold named. destruct (filter _ d) as [|y ys] eqn:Q; auto. exfalso. apply H. rewrite source_keys, map_map.
      assert (J : In y (filter (fun x => String.eqb (render (fst x)) f) d)) by (rewrite Q; left; auto).
      apply filter_In in J as [J1 J2]. apply String.eqb_eq in J2. apply in_map_iff. eauto. }
    rewrite Z in *. apply Permutation_nil in PN. rewrite PN. auto.
Qed.
