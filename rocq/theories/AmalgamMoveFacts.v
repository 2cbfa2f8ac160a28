(** * The single header of a directory in another place: the proofs *)
From Coq Require Import Lia.
From Verif Require Import AmalgamText AmalgamTextSpec AmalgamTextFacts AmalgamHeaderFacts.
From Verif Require Amalgam.
Import Amalgam.
Local Open Scope list_scope.

(** ** Other names for the files *)

Section Names.
Variable i : ident -> ident.
Hypothesis inj : forall x y, i x = i y -> x = y.

Definition ren_line (l : line) : line := match l with LInc f => LInc (i f) | x => x end.
Definition ren_source (src : source) : source := map (fun x => (i (fst x), map ren_line (snd x))) src.
Definition ren_graph (g : graph) : graph := map (fun x => (i (fst x), map i (snd x))) g.
Definition ren_out (o : amalgamated) : amalgamated :=
  match o with Bad => Bad | Single std bs => Single std (map (fun b => (i (fst b), snd b)) bs) end.

Lemma eqb_ren x y : String.eqb (i x) (i y) = String.eqb x y.
Proof using inj.
  destruct (String.eqb_spec x y) as [->|N]; [apply String.eqb_refl|].
  apply String.eqb_neq. intros E. apply N, inj, E.
Qed.
Lemma memb_ren x l : memb (i x) (map i l) = memb x l.
Proof using inj.
  destruct (memb x l) eqn:M.
  - apply ReadFacts.memb_In in M. apply ReadFacts.memb_In, in_map. auto.
  - apply AmalgamFacts.memb_false in M. apply AmalgamFacts.memb_false. intros H. apply M.
    apply in_map_iff in H as (y & E & H). apply inj in E. subst. auto.
Qed.
Lemma filter_ren p q l : (forall x, q (i x) = p x) -> filter q (map i l) = map i (filter p l).
Proof using.
  intros H. induction l as [|x l IH]; simpl; auto. rewrite H, IH. destruct (p x); auto.
Qed.
Lemma includes_ren g f : includes (ren_graph g) (i f) = map i (includes g f).
Proof using inj.
  induction g as [|[x l] g IH]; simpl; auto. rewrite eqb_ren. destruct (String.eqb x f); auto.
Qed.
Lemma each_ren {T} (phi : T -> T) step step' l : (forall x t, step' (i x) (phi t) = option_map phi (step x t)) ->
  forall t, each step' (map i l) (phi t) = option_map phi (each step l t).
Proof using.
  intros H. induction l as [|x l IH]; intros t; simpl; auto. rewrite H. destruct (step x t); simpl; auto.
Qed.

Definition both (s : list ident * list ident) := (map i (fst s), map i (snd s)).
Lemma transitive_ren n g : forall f v,
  Amalgam.transitive n (ren_graph g) (i f) (map i v) = option_map both (Amalgam.transitive n g f v).
Proof using inj.
  induction n as [|n IH]; intros f v; simpl; auto. rewrite memb_ren. destruct (memb f v); auto.
  rewrite includes_ren. change (map i (includes g f), i f :: map i v) with (both (includes g f, f :: v)).
  apply each_ren. intros x [a b]. simpl. rewrite IH. destruct (Amalgam.transitive n g x b) as [[ds v']|]; simpl; auto.
  unfold both. simpl. rewrite map_app. auto.
Qed.
Lemma covered_ren g l : covered (ren_graph g) (map i l) = option_map (map i) (covered g l).
Proof using inj.
  unfold covered, depth, ren_graph at 1. rewrite map_length. change (@nil ident) with (map i []) at 2.
  apply each_ren. intros x t. change (@nil ident) with (map i []) at 1. rewrite transitive_ren.
  destruct (Amalgam.transitive _ g x []) as [[ds v]|]; simpl; auto. rewrite map_app. auto.
Qed.
Lemma reduce_ren g h : reduce (ren_graph g) (ren_graph h) = option_map ren_graph (reduce g h).
Proof using inj.
  induction h as [|[f incs] h IH]; simpl; auto. rewrite covered_ren. change (map _ h) with (ren_graph h). rewrite IH.
  destruct (covered g incs) as [t|]; simpl; auto. destruct (reduce g h) as [r|]; simpl; auto. repeat f_equal.
  apply filter_ren. intros x. rewrite memb_ren. auto.
Qed.
Lemma visit_ren n g : forall f v, visit n (ren_graph g) (i f) (both v) = option_map both (visit n g f v).
Proof using inj.
  induction n as [|n IH]; intros f [v o]; simpl; auto. rewrite memb_ren. destruct (memb f v); auto.
  rewrite includes_ren. change (i f :: map i v, map i o) with (both (f :: v, o)).
  rewrite (each_ren both (visit n g)) by auto.
  destruct (each (visit n g) (includes g f) (f :: v, o)) as [[v' o']|]; simpl; auto.
  unfold both. simpl. rewrite map_app. auto.
Qed.
Lemma sort_ren g f : topological_sort (ren_graph g) (i f) = option_map (map i) (topological_sort g f).
Proof using inj.
  unfold topological_sort, depth, ren_graph at 1. rewrite map_length.
  change (@nil ident, @nil ident) with (both ([], [])). rewrite visit_ren.
  destruct (visit _ g f _) as [[v o]|]; auto.
Qed.
Lemma once_ren l : forall seen, once (map i seen) (map i l) = map i (once seen l).
Proof using inj.
  induction l as [|x l IH]; intros seen; simpl; auto. rewrite memb_ren. destruct (memb x seen); auto.
  simpl. f_equal. apply (IH (x :: seen)).
Qed.
Lemma isfile_ren src f : isfile (ren_source src) (i f) = isfile src f.
Proof using inj.
  unfold isfile, ren_source. rewrite map_map. simpl. rewrite <- (map_map fst i). apply memb_ren.
Qed.
Lemma file_includes_ren ls : file_includes (map ren_line ls) = map i (file_includes ls).
Proof using. induction ls as [|[] ls IH]; simpl; auto. f_equal. auto. Qed.
Lemma std_includes_ren ls : std_includes (map ren_line ls) = std_includes ls.
Proof using. induction ls as [|[] ls IH]; simpl; auto. f_equal. auto. Qed.
Lemma code_ren ls : code_of (map ren_line ls) = code_of ls.
Proof using. induction ls as [|[] ls IH]; simpl; auto. f_equal. auto. Qed.
Lemma graph_ren src : graph_of (ren_source src) = ren_graph (graph_of src).
Proof using inj.
  unfold graph_of, ren_graph. rewrite map_map. unfold ren_source at 2. rewrite map_map. apply map_ext.
  intros [f ls]. simpl. f_equal. rewrite file_includes_ren. apply filter_ren. intros x. apply isfile_ren.
Qed.
Lemma std_ren src : all_std (ren_source src) = all_std src.
Proof using.
  unfold all_std, ren_source. induction src as [|[f ls] src IH]; simpl; auto. rewrite std_includes_ren, IH. auto.
Qed.
Lemma text_ren src f : Amalgam.text (ren_source src) (i f) = map ren_line (Amalgam.text src f).
Proof using inj.
  induction src as [|[x l] src IH]; simpl; auto. rewrite eqb_ren. destruct (String.eqb x f); auto.
Qed.

Lemma amalgam_ren src e : amalgam (ren_source src) (i e) = option_map ren_out (amalgam src e).
Proof using inj.
  unfold amalgam. rewrite isfile_ren. destruct (negb (isfile src e)); auto.
  rewrite graph_ren, reduce_ren. destruct (reduce _ _) as [r|]; simpl; auto. rewrite sort_ren.
  destruct (topological_sort r e) as [o|]; simpl; auto. rewrite std_ren. repeat f_equal.
  change (@nil ident) with (map i []) at 1. rewrite once_ren, !map_map. apply map_ext. intros f.
  unfold Amalgam.block. simpl. rewrite text_ren, code_ren. auto.
Qed.
End Names.

(** ** A directory and the same at the root *)

Section Move.
Variable b : path.
Variable d : disk.
Hypothesis D : sound d.
Hypothesis C : closed d.

Lemma render_app p q : render (p ++ q) = (render p ++ render q)%string.
Proof using.
  induction p as [|c p IH]; simpl; auto. f_equal. rewrite IH.
  generalize (render p) (render q). intros u v. induction c; simpl; congruence.
Qed.
Lemma append_inj (x y z : string) : (x ++ y)%string = (x ++ z)%string -> y = z.
Proof using. induction x as [|a x IH]; simpl; intros E; auto. inversion E. auto. Qed.
Lemma above_app p q : above (b ++ p) (b ++ q) = above p q.
Proof using. induction b as [|c c' IH]; simpl; auto. rewrite String.eqb_refl, IH. auto. Qed.
Lemma same_app p q : same (b ++ p) (b ++ q) = same p q.
Proof using. induction b as [|c c' IH]; simpl; auto. rewrite String.eqb_refl, IH. auto. Qed.
Lemma existsb_map {A B} (f : A -> B) p l : existsb p (map f l) = existsb (fun x => p (f x)) l.
Proof using. induction l; simpl; congruence. Qed.
Lemma existsb_eq {A} (p q : A -> bool) l : (forall x, p x = q x) -> existsb p l = existsb q l.
Proof using. intros H. induction l; simpl; congruence. Qed.
Lemma is_dir_below p : is_dir (below b d) (b ++ p) = is_dir d p.
Proof using. unfold is_dir, below. rewrite existsb_map. apply existsb_eq. intros f. apply above_app. Qed.
Lemma is_file_below p : is_file (below b d) (b ++ p) = is_file d p.
Proof using. unfold is_file, below. rewrite existsb_map. apply existsb_eq. intros f. apply same_app. Qed.

Lemma go_below p c k cs : stays k (c :: cs) -> k = length p ->
  go (b ++ p) c = b ++ go p c /\ stays (length (go p c)) cs.
Proof using.
  intros H E. unfold go.
  inversion H as [|? ? ? Hc Hs|k0 ? Hs|? ? ? N1 N2 N3 Hs]; subst.
  - destruct Hc as [-> | ->]; simpl; auto.
  - cbn [String.eqb Ascii.eqb Bool.eqb orb]. destruct p as [|x p]; [discriminate|]. split; [apply removelast_app; discriminate|].
    assert (L : length (removelast (x :: p)) = k0).
    { destruct (@exists_last _ (x :: p)) as (p' & y & Ep); [discriminate|]. rewrite Ep in *. rewrite removelast_last.
      rewrite app_length in *. simpl in *. lia. }
    rewrite L. auto.
  - apply String.eqb_neq in N1, N2, N3. rewrite N1, N2, N3. simpl. rewrite <- app_assoc. split; auto.
    rewrite app_length. simpl. rewrite Nat.add_1_r. auto.
Qed.
Lemma walk_below cs : forall p, stays (length p) cs ->
  walk (below b d) (b ++ p) cs = option_map (app b) (walk d p cs) /\
  fold_left go cs (b ++ p) = b ++ fold_left go cs p.
Proof using.
  induction cs as [|c cs IH]; intros p H; simpl; auto. destruct (go_below p c _ cs H eq_refl) as [E H'].
  rewrite is_dir_below, E. destruct (IH _ H') as [I1 I2]. rewrite I1, I2. destruct (is_dir d p); auto.
Qed.

Lemma kind_below dir f t l : In (dir ++ [f], t) d -> In l (lines t) ->
  kind (below b d) (b ++ dir) l = map (ren_line (append (render b))) (kind d dir l).
Proof using C.
  intros I Hl. unfold kind. destruct (inc_line l) as [n|] eqn:E; [|destruct (std_line l); auto].
  apply inc_line_iff in E. set (name := string_of_list_ascii n). cbv zeta.
  destruct (parts_text name) as [F Hn].
  assert (Q : quoted l (slashed (parts name))).
  { rewrite <- Hn. unfold name. rewrite list_ascii_of_string_of_list_ascii. auto. }
  destruct (C dir f t (lines t) l (parts name) I (lines_text t) Hl (parts_some name) F Q) as [N St].
  assert (S0 : forall x, start x name = x).
  { intros x. unfold start. destruct (parts name) as [|c cs]; auto. destruct c; auto. exfalso. eapply N; eauto. }
  unfold finds, abspath. rewrite !S0. destruct (walk_below (parts name) dir St) as [W1 W2]. rewrite W1, W2.
  destruct (walk d dir (parts name)) as [q|]; simpl; auto. rewrite is_file_below. destruct (is_file d q); auto.
  simpl. rewrite render_app. auto.
Qed.
Lemma scanned_below p : p <> [] -> scanned b (b ++ p) = scanned [] p.
Proof using.
  intros N. destruct (exists_last N) as (q & f & ->). unfold scanned. rewrite app_assoc, !last_last, <- app_assoc.
  f_equal. rewrite <- (app_nil_r b) at 1. apply above_app.
Qed.
Lemma source_below : source_of b (below b d) = ren_source (append (render b)) (source_of [] d).
Proof using C D.
  unfold source_of, below, ren_source. rewrite !map_map. apply map_ext_in. intros [p t] I. cbn [fst snd].
  rewrite render_app. f_equal. unfold lines_of. cbn [fst snd].
  assert (Np : p <> []) by (apply (in_sound d p D); apply in_map_iff; exists (p, t); auto).
  rewrite scanned_below by auto. destruct (exists_last Np) as (dir & f & ->).
  rewrite app_assoc, !removelast_last.
  assert (G : forall ls, (forall l, In l ls -> In l (lines t)) ->
    flat_map (if scanned [] (dir ++ [f]) then kind (below b d) (b ++ dir) else only_code) ls =
    map (ren_line (append (render b))) (flat_map (if scanned [] (dir ++ [f]) then kind d dir else only_code) ls)).
  { induction ls as [|l ls IH]; intros H; auto. cbn [flat_map]. rewrite map_app, IH by (intros; apply H; right; auto).
    f_equal. destruct (scanned [] (dir ++ [f])).
    - apply (kind_below dir f t); auto. apply H. left; auto.
    - unfold only_code. destruct (inc_line l); auto. destruct (std_line l); auto. }
  apply G. auto.
Qed.
Lemma named_below x : named (below b d) (append (render b) x) = below b (named d x).
Proof using.
  clear D C. unfold named, below. induction d as [|[p t] d' IH]; simpl; auto. rewrite render_app, IH.
  rewrite (eqb_ren (append (render b))) by (intros ? ?; apply append_inj). destruct (String.eqb (render p) x); auto.
Qed.

Lemma at_root e : amalgamate b (below b d) (absolute (b ++ e)) = amalgamate [] d (absolute e).
Proof using C D.
  rewrite (absolute_render (b ++ e)), (absolute_render e), render_app. unfold amalgamate.
  assert (X : existsb (fun f => scanned b (fst f) && String.eqb (render (fst f)) (append (render b) (render e))) (below b d) =
              existsb (fun f => scanned [] (fst f) && String.eqb (render (fst f)) (render e)) d).
  { unfold below. rewrite existsb_map. cbn [fst]. assert (G : forall f, In f d -> fst f <> []).
    { intros [p t] I. apply (in_sound d p D). apply in_map_iff. exists (p, t). auto. }
    clear D C. induction d as [|f d' IH]; cbn [existsb]; auto. rewrite IH by (intros; apply G; right; auto).
    rewrite scanned_below by (apply G; left; auto). rewrite render_app.
    rewrite (eqb_ren (append (render b))) by (intros ? ?; apply append_inj). auto. }
  rewrite X. destruct (negb _); auto.
  rewrite source_below, amalgam_ren by (intros ? ?; apply append_inj).
  destruct (amalgam (source_of [] d) (render e)) as [[|std bs]|]; simpl; auto. f_equal. f_equal. f_equal.
  induction bs as [|[f c] bs IH]; simpl; auto. rewrite IH, named_below. f_equal.
  unfold below. generalize (named d f). intros l. induction l as [|[p t] l IHl]; simpl; auto. rewrite IHl. f_equal.
  unfold file_text, shown. cbn [fst snd]. rewrite relpath_below. auto.
Qed.
End Move.

Lemma moved b b' d e : sound d -> closed d ->
  amalgamate b (below b d) (absolute (b ++ e)) = amalgamate b' (below b' d) (absolute (b' ++ e)).
Proof. intros D C. rewrite !at_root; auto. Qed.

(** ** The names in the comments *)

Lemma relpath_way base : forall p, way base p (relpath base p).
Proof.
  induction base as [|x base IH]; intros p.
  - exists [], [], p. simpl. repeat split; auto. discriminate.
  - destruct p as [|c p].
    + exists [], (x :: base), []. simpl. rewrite !app_nil_r. repeat split; auto; [|discriminate].
      f_equal. clear. induction base; simpl; congruence.
    + simpl. destruct (String.eqb_spec x c) as [->|N].
      * destruct (IH p) as (k & up & down & -> & -> & E & H). exists (c :: k), up, down. auto.
      * exists [], (x :: base), (c :: p). simpl. repeat split; auto.
        -- f_equal. f_equal. clear. induction base; simpl; congruence.
        -- intros y u v E. inversion E. congruence.
Qed.
Lemma comments base p : exists w, way base p w /\ shown base p = slashed w.
Proof. exists (relpath base p). split; [apply relpath_way|apply concat_slashed]. Qed.

(** ** Deciding it *)

Fixpoint staysb (k : nat) (cs : list string) : bool :=
  match cs with
  | [] => true
  | c :: cs' =>
      if String.eqb c "" || String.eqb c "." then staysb k cs'
      else if String.eqb c ".." then match k with O => false | S k' => staysb k' cs' end
      else staysb (S k) cs'
  end.
Lemma staysb_ok cs : forall k, staysb k cs = true -> stays k cs.
Proof.
  induction cs as [|c cs IH]; intros k; simpl; [constructor|].
  destruct (String.eqb_spec c ""); simpl; [intros H; apply stays_here; auto|].
  destruct (String.eqb_spec c "."); simpl; [intros H; apply stays_here; auto|].
  destruct (String.eqb_spec c ".."); simpl; [|intros H; apply stays_down; auto].
  subst c. destruct k; [discriminate|]. intros H. apply stays_up. auto.
Qed.
Definition closedb (d : disk) : bool :=
  forallb (fun f => forallb (fun l => match inc_line l with
    | Some n => match parts (string_of_list_ascii n) with
                | ""%string :: _ => false
                | cs => staysb (length (removelast (fst f))) cs
                end
    | None => true
    end) (lines (snd f))) d.
Lemma closedb_ok d : closedb d = true -> closed d.
Proof.
  intros H dir f t ls l cs I T Hl N F Q. apply text_lines_eq in T. subst ls.
  unfold closedb in H. rewrite forallb_forall in H. specialize (H _ I). cbn [fst snd] in H.
  rewrite forallb_forall in H. specialize (H _ Hl). apply inc_line_iff in Q. rewrite Q in H.
  rewrite parts_slashed in H by auto. rewrite removelast_last in H.
  destruct cs as [|[|] cs]; [congruence|discriminate|]. split; [discriminate|]. apply staysb_ok. auto.
Qed.
