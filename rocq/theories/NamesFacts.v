(** * Names: proofs *)
From Coq Require Import String Ascii List Lia.
From Verif Require Import Names NamesSpec EquivFacts ProgFacts WriteLoc StaticMore StaticFacts StaticWf.
Import ListNotations.
Local Open Scope list_scope.

(** ** Cutting *)
Lemma as_sv_plain s : ~ has_nul s -> as_sv s = s.
Proof.
  induction s as [|c s IH]; auto. intros H. simpl. destruct (Ascii.eqb c zero) eqn:E.
  - apply Ascii.eqb_eq in E. subst. destruct H. exists 0%nat. reflexivity.
  - rewrite IH; auto. intros [n Hn]. apply H. exists (S n). exact Hn.
Qed.

Lemma as_sv_no_nul s : ~ has_nul (as_sv s).
Proof.
  induction s as [|c s IH]; simpl.
  - intros [n Hn]. destruct n; discriminate.
  - destruct (Ascii.eqb c zero) eqn:E.
    + intros [n Hn]. destruct n; discriminate.
    + intros [[|n] Hn]; simpl in Hn.
      * injection Hn as ->. rewrite Ascii.eqb_refl in E. discriminate.
      * apply IH. exists n. exact Hn.
Qed.

Lemma as_sv_app p rest : ~ has_nul p -> as_sv (append p (String zero rest)) = p.
Proof.
  induction p as [|c p IH]; auto. intros H. simpl. destruct (Ascii.eqb c zero) eqn:E.
  - apply Ascii.eqb_eq in E. subst. destruct H. exists 0%nat. reflexivity.
  - rewrite IH; auto. intros [n Hn]. apply H. exists (S n). exact Hn.
Qed.

Lemma as_sv_split s : as_sv s = s \/ exists rest, s = append (as_sv s) (String zero rest).
Proof.
  induction s as [|c s IH]; simpl; auto. destruct (Ascii.eqb c zero) eqn:E.
  - right. apply Ascii.eqb_eq in E. subst. exists s. reflexivity.
  - destruct IH as [IH|[rest IH]]; [left; congruence|right; exists rest; simpl; congruence].
Qed.

Lemma as_sv_iff s p : as_sv s = p <->
  ~ has_nul p /\ (s = p \/ exists rest, s = append p (String zero rest)).
Proof.
  split.
  - intros <-. split; [apply as_sv_no_nul|]. destruct (as_sv_split s); auto.
  - intros (H & [->|[rest ->]]); [apply as_sv_plain|apply as_sv_app]; exact H.
Qed.

(** ** A renaming that keeps finitely many names apart extends to a one-to-one one *)
Definition swap (x y z : ident) : ident :=
  if String.eqb z x then y else if String.eqb z y then x else z.

Lemma swap_one x y : one_to_one (swap x y).
Proof.
  intros a b. unfold swap.
  destruct (String.eqb_spec a x), (String.eqb_spec a y), (String.eqb_spec b x), (String.eqb_spec b y);
    intros; subst; try congruence.
Qed.

Lemma extend r l : apart_on r l -> exists p, one_to_one p /\ forall x, In x l -> p x = r x.
Proof.
  induction l as [|x l IH]; intros H.
  - exists (fun z => z). split; [intros a b E; exact E|intros _ []].
  - destruct IH as (p & Hp & Hl). { intros a b Ha Hb. apply H; right; auto. }
    destruct (in_dec string_dec x l) as [Hx|Hx].
    + exists p. split; auto. intros z [<-|Hz]; auto.
    + exists (fun z => swap (p x) (r x) (p z)). split.
      * intros a b E. apply Hp, (swap_one _ _ _ _ E).
      * intros z [<-|Hz]; unfold swap.
        -- now rewrite String.eqb_refl.
        -- rewrite (Hl z Hz).
           destruct (String.eqb_spec (r z) (p x)) as [E|_].
           { rewrite <- (Hl z Hz) in E. apply Hp in E. subst. contradiction. }
           destruct (String.eqb_spec (r z) (r x)) as [E|_]; auto.
           apply H in E; [subst; contradiction|right; auto|left; auto].
Qed.

(** ** [map_fields] is a renaming *)
Lemma map_eq_in {A B} (f g : A -> B) l : (forall x, In x l -> f x = g x) -> map f l = map g l.
Proof. apply map_ext_in. Qed.

Lemma ren_len_eq p r l : (forall x, In x (names_of l) -> p x = r x) -> ren_len p l = ren_len r l.
Proof. destruct l; simpl; intros H; f_equal; auto. apply map_eq_in; auto. Qed.

Lemma ren_guide_eq p r g : (forall x, In x (guide_refs g) -> p x = r x) -> ren_guide p g = ren_guide r g.
Proof.
  destruct g; simpl; intros H; f_equal; auto; try (apply map_eq_in; auto).
  intros b Hb. f_equal. apply map_eq_in. intros x Hx. apply H, in_flat_map. eauto.
Qed.

Section Ren.
Variable r : ident -> ident.

Definition apart_in (ls : list fields) : Prop := forall gs, In gs ls -> apart_on r (names gs).

Lemma apart_app l l' : apart_in (l ++ l') -> apart_in l /\ apart_in l'.
Proof. intros H. split; intros gs Hg; apply H, in_or_app; auto. Qed.

Lemma map_ren :
  (forall t p, (forall x, In x (refs t) -> p x = r x) -> apart_in (lists_ty t) -> ren_ty p t (map_ty r t)) /\
  (forall fs p, (forall x, In x (names fs) -> p x = r x) -> apart_in (lists_fields fs) ->
     ren_fields p fs (map_fields r fs)) /\
  (forall al p, (forall x, In x (refs_alts al) -> p x = r x) -> apart_in (lists_alts al) ->
     ren_alts p al (map_alts r al)).
Proof.
  assert (N : forall fs, (forall p, (forall x, In x (names fs) -> p x = r x) -> apart_in (lists_fields fs) ->
     ren_fields p fs (map_fields r fs)) -> apart_in (fs :: lists_fields fs) ->
     exists q, one_to_one q /\ ren_fields q fs (map_fields r fs)).
  { intros fs IH H. destruct (extend r (names fs)) as (q & Hq & E); [apply H; left; auto|].
    exists q. split; auto. apply IH; auto. intros gs Hg. apply H. right. exact Hg. }
  apply schema_mutind; simpl.
  - intros. constructor.
  - intros e l b p Hp _. rewrite <- (ren_len_eq _ _ _ Hp). constructor.
  - intros fs IH p _ H. destruct (N fs IH H) as (q & Hq & R). econstructor; eauto.
  - intros n fs IH p _ H. destruct (N fs IH H) as (q & Hq & R). econstructor; eauto.
  - intros fs IH sz l b p Hp H. destruct (N fs IH H) as (q & Hq & R).
    rewrite <- (ren_len_eq _ _ _ Hp). econstructor; eauto.
  - intros b IH f ids p Hp H. rewrite <- (map_eq_in p r ids).
    + constructor. apply IH; auto. intros x Hx. apply Hp, in_or_app. auto.
    + intros x Hx. apply Hp, in_or_app. auto.
  - intros g al IH p Hp H. rewrite <- (ren_guide_eq p r g).
    + constructor. apply IH; auto. intros x Hx. apply Hp, in_or_app. auto.
    + intros x Hx. apply Hp, in_or_app. auto.
  - intros. constructor.
  - intros id t IHt k fs IHf p Hp H. destruct (apart_app _ _ H) as [H1 H2].
    rewrite <- (Hp id) by auto. constructor.
    + apply IHt; auto. intros x Hx. apply Hp. right. apply in_or_app. auto.
    + apply IHf; auto. intros x Hx. apply Hp. right. apply in_or_app. auto.
  - intros. constructor.
  - intros t IHt k al IHa p Hp H. destruct (apart_app _ _ H) as [H1 H2]. constructor.
    + apply IHt; auto. intros x Hx. apply Hp, in_or_app. auto.
    + apply IHa; auto. intros x Hx. apply Hp, in_or_app. auto.
Qed.

Lemma map_ren_top fs : keeps_apart r fs -> exists p, one_to_one p /\
  (forall x, In x (names fs) -> p x = r x) /\ ren_fields p fs (map_fields r fs).
Proof.
  intros H. destruct (extend r (names fs)) as (p & Hp & E); [apply H; left; auto|].
  exists p. split; [|split]; auto. apply map_ren; auto. intros gs Hg. apply H. right. exact Hg.
Qed.
End Ren.

(** ** The name in an error is one of the list *)
Lemma ids_names fs x : In x (f_ids fs) -> In x (names fs).
Proof. induction fs; simpl; auto. intros [H|H]; auto. right. apply in_or_app. auto. Qed.

Lemma read_err_name c S alloc : forall fs e s x i s' ev,
  rrun S alloc (read_fields c e fs) s = (Err (x, i), s', ev) -> In i (f_ids fs).
Proof.
  induction fs as [|id t k fs IH]; intros e s x i s' ev; cbn [read_fields].
  - discriminate.
  - rewrite rrun_bind, rrun_maperr. destruct (rrun S alloc (rbind (read_ty c e t) (rcheck k)) s) as [[[v|y| | |] s1] e1];
      try discriminate.
    + rewrite rrun_bind. destruct (rrun S alloc (read_fields c (update e id v) fs) s1) as [[[vs|[y j]| | |] s2] e2] eqn:E;
        try (intros H; cbn in H; discriminate).
      intros H. injection H as -> -> _ _. right. eapply IH; eauto.
    + intros H. injection H as _ <- _ _. left. reflexivity.
Qed.

Lemma write_err_name c S fs vs : forall gs ws s x i s' ch,
  wrun S (write_fields c fs vs gs ws) s = (Err (x, i), s', ch) -> In i (f_ids gs).
Proof.
  induction gs as [|id t k gs IH]; intros ws s x i s' ch; destruct ws as [|w ws]; cbn [write_fields];
    try discriminate.
  rewrite wrun_bind, wrun_maperr. destruct (wrun S (wbind _ _) s) as [[[v|y| | |] s1] c1]; try discriminate.
  + destruct (wrun S (write_fields c fs vs gs ws) s1) as [[[u|[y j]| | |] s2] c2] eqn:E;
      try (intros H; cbn in H; discriminate).
    intros H. injection H as -> -> _ _. right. eapply IH; eauto.
  + intros H. injection H as _ <- _ _. left. reflexivity.
Qed.

Lemma mapped_read c r fs S alloc s : keeps_apart r fs ->
  rrun S alloc (struct_cast c (map_fields r fs)) s =
  let '(o, s', ev) := rrun S alloc (struct_cast c fs) s in (ren_outcome r o, s', ev).
Proof.
  intros H. destruct (map_ren_top r fs H) as (p & Hp & E & R).
  rewrite (rename_read c p fs _ S alloc s Hp R).
  destruct (rrun S alloc (struct_cast c fs) s) as [[[a|[e id]| | |] s'] ev] eqn:X; auto.
  simpl. rewrite E; auto. apply ids_names. eapply read_err_name. exact X.
Qed.

Lemma mapped_write c r fs vs S s : keeps_apart r fs ->
  wrun S (stream_cast c (map_fields r fs) vs) s =
  let '(o, s', ch) := wrun S (stream_cast c fs vs) s in (ren_outcome r o, s', ch).
Proof.
  intros H. destruct (map_ren_top r fs H) as (p & Hp & E & R).
  rewrite (rename_write c p fs _ vs S s Hp R).
  destruct (wrun S (stream_cast c fs vs) s) as [[[a|[e id]| | |] s'] ch] eqn:X; auto.
  simpl. rewrite E; auto. apply ids_names. eapply write_err_name. exact X.
Qed.

(** ** Acceptance *)
Section Acc.
Variable r : ident -> ident.

Lemma map_ids fs : f_ids (map_fields r fs) = map r (f_ids fs).
Proof. induction fs; simpl; congruence. Qed.

Lemma map_flist fs : f_list (map_fields r fs) =
  map (fun x => (r (fst (fst x)), map_ty r (snd (fst x)), snd x)) (f_list fs).
Proof. induction fs; simpl; congruence. Qed.

Lemma map_flen fs : f_len (map_fields r fs) = f_len fs.
Proof. induction fs; simpl; congruence. Qed.

Lemma map_alen al : a_len (map_alts r al) = a_len al.
Proof. induction al; simpl; congruence. Qed.

Lemma map_atypes al : a_types (map_alts r al) = map (map_ty r) (a_types al).
Proof. induction al; simpl; congruence. Qed.

Lemma map_lists :
  (forall t, lists_ty (map_ty r t) = map (map_fields r) (lists_ty t)) /\
  (forall fs, lists_fields (map_fields r fs) = map (map_fields r) (lists_fields fs)) /\
  (forall al, lists_alts (map_alts r al) = map (map_fields r) (lists_alts al)).
Proof. apply schema_mutind; simpl; intros; rewrite ?map_app; congruence. Qed.

Lemma map_lists_top fs : lists (map_fields r fs) = map (map_fields r) (lists fs).
Proof. unfold lists. simpl. f_equal. apply map_lists. Qed.

Lemma map_names_of l : names_of (ren_len r l) = map r (names_of l).
Proof. destruct l; reflexivity. Qed.

Lemma map_len_uses :
  (forall t, len_uses (map_ty r t) = map r (len_uses t)) /\
  (forall fs : fields, True) /\
  (forall al, len_uses_alts (map_alts r al) = map r (len_uses_alts al)).
Proof. apply schema_mutind; simpl; intros; rewrite ?map_app, ?map_names_of; first [exact I | congruence | auto]. Qed.

Lemma map_pred_uses t : pred_uses (map_ty r t) = map r (pred_uses t).
Proof. destruct t; reflexivity. Qed.

Lemma map_switch_uses t : switch_uses (map_ty r t) = map r (switch_uses t).
Proof.
  destruct t as [| | | | | |g al]; try reflexivity. destruct g; try reflexivity. simpl.
  induction brs as [|b brs IH]; simpl; auto. rewrite map_app, <- IH. reflexivity.
Qed.

Lemma map_uses t : uses (map_ty r t) = map r (uses t).
Proof.
  unfold uses. rewrite !map_app, map_pred_uses, map_switch_uses. f_equal. apply map_len_uses.
Qed.

Lemma map_plain t : plain_field (map_ty r t) <-> plain_field t.
Proof. destruct t; simpl; tauto. Qed.

Lemma map_width m t : width_ok m (map_ty r t) <-> width_ok m t.
Proof. destruct t; simpl; tauto. Qed.

Lemma map_values szw g : match_values_of szw (ren_guide r g) = match_values_of szw g.
Proof. destruct g; reflexivity. Qed.

Lemma map_described szw k t : described szw k (map_ty r t) <-> described szw k t.
Proof.
  destruct t; simpl; try tauto.
  - now rewrite map_plain, map_width.
  - rewrite map_values, map_atypes, Forall_map.
    assert (E : forall u, (plain_field (map_ty r u) /\ width_ok False (map_ty r u)) <-> (plain_field u /\ width_ok False u))
      by (intros u; now rewrite map_plain, map_width).
    split; intros [H1 H2]; split; auto; revert H2; apply Forall_impl; intros u; apply E.
Qed.

Lemma map_small_ty t : small_ty (map_ty r t) <-> small_ty t.
Proof.
  unfold small_ty. rewrite (proj1 map_len_uses), map_pred_uses, map_switch_uses, !map_length.
  destruct t; simpl; try tauto.
  - destruct t; simpl; try tauto.
  - rewrite map_alen. destruct g; simpl; try tauto. rewrite map_length. tauto.
Qed.

Lemma map_in_list fs id t k : In (id, t, k) (f_list (map_fields r fs)) <->
  exists id' t', id = r id' /\ t = map_ty r t' /\ In (id', t', k) (f_list fs).
Proof.
  rewrite map_flist, in_map_iff. split.
  - intros (((id', t'), k') & E & H). simpl in E. injection E as <- <- <-. eauto.
  - intros (id' & t' & -> & -> & H). exists (id', t', k). auto.
Qed.

Lemma map_small fs : small (map_fields r fs) <-> small fs.
Proof.
  unfold small. rewrite map_flen. split; intros [H1 H2]; split; auto; intros id t k Hi.
  - apply map_small_ty, (H2 (r id) _ k), map_in_list. eauto.
  - apply map_in_list in Hi. destruct Hi as (id' & t' & -> & -> & Hi). apply map_small_ty. eauto.
Qed.

Lemma refs_uses t x : In x (uses t) -> In x (refs t).
Proof.
  assert (L : (forall t x, In x (len_uses t) -> In x (refs t)) /\ (forall fs : fields, True) /\
              (forall al x, In x (len_uses_alts al) -> In x (refs_alts al))).
  { apply schema_mutind; simpl; intros; rewrite ?in_app_iff in *; intuition. }
  unfold uses. rewrite !in_app_iff. intros [H|[H|H]].
  - now apply L.
  - destruct t; simpl in *; try contradiction. apply in_or_app. auto.
  - destruct t as [| | | | | |g al]; simpl in *; try contradiction. apply in_or_app. left.
    destruct g; exact H.
Qed.

Lemma list_names fs id t k : In (id, t, k) (f_list fs) ->
  In id (names fs) /\ forall x, In x (refs t) -> In x (names fs).
Proof.
  induction fs as [|id' t' k' fs IH]; simpl; [tauto|]. intros [E|H].
  - injection E as -> -> ->. split; auto. intros x Hx. right. apply in_or_app. auto.
  - destruct (IH H) as [H1 H2]. split; [right; apply in_or_app; auto|].
    intros x Hx. right. apply in_or_app. auto.
Qed.

Lemma nodup_map_on l : (forall a b, In a l -> In b l -> r a = r b -> a = b) ->
  (NoDup (map r l) <-> NoDup l).
Proof.
  intros H. split; [apply NoDup_map_inv|]. induction l as [|x l IH]; intros N; [constructor|].
  inversion N; subst. simpl. constructor.
  - rewrite in_map_iff. intros (y & E & Hy). apply H in E; simpl; auto. subst. contradiction.
  - apply IH; auto. intros a b Ha Hb. apply H; simpl; auto.
Qed.

Lemma nth_list_ids fs : forall i id t k, nth_error (f_list fs) i = Some (id, t, k) -> nth_error (f_ids fs) i = Some id.
Proof. induction fs; intros [|i] x t' k' H; simpl in *; try discriminate; [congruence|eauto]. Qed.

Lemma in_firstn {A} (l : list A) i x : In x (firstn i l) -> In x l.
Proof. intros H. rewrite <- (firstn_skipn i l). apply in_or_app. auto. Qed.

Lemma map_earlier fs : apart_on r (names fs) ->
  (uses_earlier_or_itself (map_fields r fs) <-> uses_earlier_or_itself fs).
Proof.
  intros A. unfold uses_earlier_or_itself. rewrite map_ids. split.
  - intros H i id t k d Hn Hd.
    assert (Hi := nth_error_In _ _ Hn). destruct (list_names _ _ _ _ Hi) as [N1 N2].
    assert (Nd : In d (names fs)) by (apply N2, refs_uses, Hd).
    destruct (H i (r id) (map_ty r t) k (r d)) as [E|E].
    + rewrite map_flist, nth_error_map, Hn. reflexivity.
    + rewrite map_uses. apply in_map. exact Hd.
    + left. rewrite <- firstn_map in E || rewrite firstn_map in E.
      apply in_map_iff in E. destruct E as (y & Ey & Hy).
      apply A in Ey; [subst; exact Hy| |exact Nd]. apply ids_names, in_firstn with (1 := Hy).
    + right. apply A; auto.
  - intros H i id t k d Hn Hd. rewrite map_flist, nth_error_map in Hn.
    destruct (nth_error (f_list fs) i) as [((id', t'), k')|] eqn:E; [|discriminate].
    injection Hn as <- <- <-. simpl in Hd. rewrite map_uses in Hd. apply in_map_iff in Hd.
    destruct Hd as (y & <- & Hy). destruct (H _ _ _ _ _ E Hy) as [X|X].
    + left. rewrite firstn_map. apply in_map. exact X.
    + right. now subst.
Qed.

Lemma map_named fs : (forall x, In x (names fs) -> r x <> EmptyString) -> named (map_fields r fs).
Proof.
  intros H. split.
  - rewrite map_ids, in_map_iff. intros (x & E & Hx). apply (H x); auto. apply ids_names. exact Hx.
  - intros id t k Hi. apply map_in_list in Hi. destruct Hi as (id' & t' & -> & -> & Hi).
    rewrite map_uses, in_map_iff. intros (x & E & Hx). apply (H x); auto.
    apply (list_names _ _ _ _ Hi), refs_uses, Hx.
Qed.

Lemma plain_named fs : (forall x, In x (names fs) -> x <> EmptyString) -> named fs.
Proof.
  intros H. split.
  - intros Hx. apply (H _ (ids_names _ _ Hx)). reflexivity.
  - intros id t k Hi Hx. apply (H EmptyString); auto. apply (list_names _ _ _ _ Hi), refs_uses, Hx.
Qed.

Lemma mapped_accepted szw fs : keeps_apart r fs ->
  no_name (fun x => x = EmptyString) fs -> no_name (fun x => r x = EmptyString) fs ->
  accepted szw (map_fields r fs) = accepted szw fs.
Proof.
  intros A N1 N2.
  assert (M1 : forall gs, In gs (lists fs) -> named gs).
  { intros gs Hg. apply plain_named. intros x Hx. exact (N1 gs x Hg Hx). }
  assert (M2 : forall gs, In gs (lists (map_fields r fs)) -> named gs).
  { intros gs Hg. rewrite map_lists_top in Hg. apply in_map_iff in Hg. destruct Hg as (hs & <- & Hg).
    apply map_named. intros x Hx. exact (N2 hs x Hg Hx). }
  apply Bool.eq_true_iff_eq. rewrite (accepted_exact szw _ M2), (accepted_exact szw fs M1).
  rewrite map_lists_top. split.
  - intros H gs Hg. destruct (H (map_fields r gs)) as (H1 & H2 & H3 & H4); [apply in_map; exact Hg|].
    rewrite map_ids in H1. split; [|split; [|split]].
    + apply NoDup_map_inv in H1. exact H1.
    + apply map_small, H2.
    + apply map_earlier; auto.
    + intros id t k Hi. apply (map_described szw k t), (H4 (r id)), map_in_list. eauto.
  - intros H hs Hh. apply in_map_iff in Hh. destruct Hh as (gs & <- & Hg).
    destruct (H gs Hg) as (H1 & H2 & H3 & H4). split; [|split; [|split]].
    + rewrite map_ids. apply nodup_map_on; auto. intros a b Ha Hb. apply (A gs Hg); apply ids_names; auto.
    + apply map_small, H2.
    + apply map_earlier; auto.
    + intros id t k Hi. apply map_in_list in Hi. destruct Hi as (id' & t' & -> & -> & Hi).
      apply map_described. eauto.
Qed.
End Acc.

(** ** What is written *)
Lemma map_id_on r :
  (forall t, (forall x, In x (refs t) -> r x = x) ->
     (forall gs x, In gs (lists_ty t) -> In x (names gs) -> r x = x) -> map_ty r t = t) /\
  (forall fs, (forall x, In x (names fs) -> r x = x) ->
     (forall gs x, In gs (lists_fields fs) -> In x (names gs) -> r x = x) -> map_fields r fs = fs) /\
  (forall al, (forall x, In x (refs_alts al) -> r x = x) ->
     (forall gs x, In gs (lists_alts al) -> In x (names gs) -> r x = x) -> map_alts r al = al).
Proof.
  assert (L : forall l, (forall x, In x (names_of l) -> r x = x) -> ren_len r l = l).
  { intros l H. rewrite (ren_len_eq r (fun x => x)) by exact H. destruct l; simpl; rewrite ?map_id; auto. }
  assert (G : forall g, (forall x, In x (guide_refs g) -> r x = x) -> ren_guide r g = g).
  { intros g H. rewrite (ren_guide_eq r (fun x => x)) by exact H. destruct g; simpl; rewrite ?map_id; auto.
    f_equal. rewrite <- (map_id brs) at 2. apply map_ext. intros [p ids]. simpl. now rewrite map_id. }
  apply schema_mutind; simpl.
  - auto.
  - intros e l b H _. now rewrite L.
  - intros fs IH _ H. rewrite IH; eauto.
  - intros n fs IH _ H. rewrite IH; eauto.
  - intros fs IH sz l b H1 H. rewrite IH, L; eauto.
  - intros b IH p ids H1 H. rewrite IH, (map_ext_in r (fun x => x)), map_id; auto;
      intros x Hx; apply H1, in_or_app; auto.
  - intros g al IH H1 H. rewrite IH, G; auto; intros x Hx; apply H1, in_or_app; auto.
  - auto.
  - intros id t IHt k fs IHf H1 H. rewrite IHt, IHf, (H1 id); auto.
    + intros x Hx. apply H1. right. apply in_or_app. auto.
    + intros gs x Hg. apply H, in_or_app. auto.
    + intros x Hx. apply H1. right. apply in_or_app. auto.
    + intros gs x Hg. apply H, in_or_app. auto.
  - auto.
  - intros t IHt k al IHa H1 H. rewrite IHt, IHa; auto.
    + intros x Hx. apply H1, in_or_app. auto.
    + intros gs x Hg. apply H, in_or_app. auto.
    + intros x Hx. apply H1, in_or_app. auto.
    + intros gs x Hg. apply H, in_or_app. auto.
Qed.

Lemma seen_plain fs : no_name has_nul fs -> seen_as fs = fs.
Proof.
  intros H. apply map_id_on.
  - intros x Hx. apply as_sv_plain, (H fs); auto. left. reflexivity.
  - intros gs x Hg Hx. apply as_sv_plain, (H gs); auto. right. exact Hg.
Qed.

Lemma seen_ids szw fs gs : written_accepted szw fs = true -> In gs (lists fs) -> NoDup (map as_sv (f_ids gs)).
Proof.
  intros H Hg. rewrite <- map_ids. apply (accepted_nodup_all szw _ _ H).
  unfold seen_as. rewrite map_lists_top. apply in_map. exact Hg.
Qed.

Lemma seen_lookup tid fs ft name x : field_table tid (seen_as fs) = Some ft ->
  NoDup (map as_sv (f_ids fs)) -> as_sv name <> EmptyString ->
  (map_get ft (as_sv name) = Some x <->
   exists i id, nth_error (f_ids fs) i = Some id /\ as_sv id = as_sv name /\ x = mkInfo (tid i) i).
Proof.
  intros H N E. rewrite (lookup_at_own tid _ _ _ H); auto.
  - unfold seen_as. rewrite map_ids. split.
    + intros (i & Hi & ->). rewrite nth_error_map in Hi.
      destruct (nth_error (f_ids fs) i) as [id|] eqn:X; [|discriminate]. injection Hi as Hi. eauto.
    + intros (i & id & Hi & E' & ->). exists i. split; auto. rewrite nth_error_map, Hi. exact (f_equal Some E').
  - unfold seen_as. rewrite map_ids. exact N.
Qed.

(** ** [operator[]] *)
Lemma map_lengths r fs : lengths (map_fields r fs) = map r (lengths fs).
Proof.
  unfold lengths. rewrite map_flist. induction (f_list fs) as [|[[id t] k] l IH]; simpl; auto.
  rewrite map_app, <- IH. f_equal. destruct t as [|e [j|] b| | |gs z [j|] b| |]; reflexivity.
Qed.

Lemma map_discs r fs : discriminants (map_fields r fs) = map r (discriminants fs).
Proof.
  unfold discriminants. rewrite map_flist. induction (f_list fs) as [|[[id t] k] l IH]; simpl; auto.
  rewrite map_app, <- IH. f_equal. destruct t as [| | | | | |[j s cs| |] al]; reflexivity.
Qed.

Lemma map_fnth r fs : forall i, f_nth (map_fields r fs) i =
  option_map (fun x => (map_ty r (fst x), snd x)) (f_nth fs i).
Proof. induction fs; intros [|i]; simpl; auto. Qed.

Lemma map_frozen r t k : is_frozen (map_ty r t) k = is_frozen t k.
Proof. destruct t; reflexivity. Qed.

Lemma lengths_names fs x : In x (lengths fs) -> In x (names fs).
Proof.
  unfold lengths. rewrite in_flat_map. intros (((id, t), k) & Hi & Hx).
  apply (list_names (fun y => y) _ _ _ _ Hi). destruct t as [|e [j|] b| | |gs z [j|] b| |]; simpl in *; tauto.
Qed.

Lemma discs_names fs x : In x (discriminants fs) -> In x (names fs).
Proof.
  unfold discriminants. rewrite in_flat_map. intros (((id, t), k) & Hi & Hx).
  apply (list_names (fun y => y) _ _ _ _ Hi). destruct t as [| | | | | |[j s cs| |] al]; simpl in *; try tauto.
Qed.

Lemma in_map_on r (l : list ident) L x : apart_on r (x :: L) -> (forall y, In y l -> In y L) ->
  (In (r x) (map r l) <-> In x l).
Proof.
  intros A H. split; [|apply in_map]. rewrite in_map_iff. intros (y & E & Hy).
  apply A in E; [now subst|right; auto|left; auto].
Qed.

Lemma in_ids_eq l l' x x' : (In x l <-> In x' l') -> is_in_ids l x = is_in_ids l' x'.
Proof. intros H. apply Bool.eq_iff_eq_true. rewrite !in_ids_iff. exact H. Qed.

Lemma access_eq_dec_ill a : {a = IllFormed} + {a <> IllFormed}.
Proof. destruct a; (left; reflexivity) || (right; discriminate). Qed.

Lemma derived_in of fs ids : derived_ids of fs = Some ids ->
  forall d, In d ids <-> In d (concat (map of (f_types fs))).
Proof.
  intros H. destruct (Nat.le_gt_cases (length (concat (map of (f_types fs)))) 64) as [K|K].
  - destruct (derived_ids_facts of fs K) as (ids' & E & F). rewrite H in E. injection E as <-. exact F.
  - apply derived_ids_none in K. congruence.
Qed.

Lemma mapped_index r b fs name : apart_on r (name :: names fs) -> NoDup (f_ids fs) ->
  name <> EmptyString -> r name <> EmptyString ->
  op_index b (map_fields r fs) (r name) = op_index b fs name.
Proof.
  intros A N E1 E2.
  destruct (access_eq_dec_ill (op_index b fs name)) as [I|I].
  { rewrite I. apply policy_ill. apply policy_ill in I.
    rewrite map_flen, map_lengths, map_discs, !map_length. exact I. }
  assert (I' : op_index b (map_fields r fs) (r name) <> IllFormed).
  { intros X. apply I. apply policy_ill in X. apply policy_ill.
    rewrite map_flen, map_lengths, map_discs, !map_length in X. exact X. }
  unfold op_index in *.
  destruct (field_table (fun _ => 0) fs) as [ft|] eqn:T; [|congruence].
  destruct (field_table (fun _ => 0) (map_fields r fs)) as [ft'|] eqn:T'; [|congruence].
  destruct (derived_ids len_sources_of fs) as [ls|] eqn:L; [|congruence].
  destruct (derived_ids len_sources_of (map_fields r fs)) as [ls'|] eqn:L'; [|congruence].
  destruct (derived_ids discriminants_of fs) as [ds|] eqn:D; [|congruence].
  destruct (derived_ids discriminants_of (map_fields r fs)) as [ds'|] eqn:D'; [|congruence].
  clear I I'.
  assert (H1 : is_in_ids ls' (r name) = is_in_ids ls name).
  { apply in_ids_eq. rewrite (derived_in _ _ _ L'), (derived_in _ _ _ L), !concat_lengths, map_lengths.
    apply (in_map_on r _ (names fs)); auto. apply lengths_names. }
  assert (H2 : is_in_ids ds' (r name) = is_in_ids ds name).
  { apply in_ids_eq. rewrite (derived_in _ _ _ D'), (derived_in _ _ _ D), !concat_discs, map_discs.
    apply (in_map_on r _ (names fs)); auto. apply discs_names. }
  assert (N' : NoDup (f_ids (map_fields r fs))).
  { rewrite map_ids. apply nodup_map_on; auto. intros x y Hx Hy. apply A; right; apply ids_names; auto. }
  assert (H3 : map_get ft' (r name) = map_get ft name).
  { assert (forall x, map_get ft' (r name) = Some x <-> map_get ft name = Some x).
    { intros x. rewrite (lookup_at_own _ _ _ _ T' N' E2), (lookup_at_own _ _ _ _ T N E1), map_ids.
      split; intros (i & Hi & ->); exists i; split; auto.
      - rewrite nth_error_map in Hi. destruct (nth_error (f_ids fs) i) as [y|] eqn:Y; [|discriminate].
        injection Hi as Hi. apply A in Hi; [now subst|right; apply ids_names; eapply nth_error_In; eauto|left; auto].
      - rewrite nth_error_map, Hi. reflexivity. }
    destruct (map_get ft' (r name)) as [x|], (map_get ft name) as [y|]; auto.
    - symmetry. apply H. reflexivity.
    - symmetry. apply H. reflexivity.
    - apply H. reflexivity. }
  rewrite H1, H2, H3. destruct (map_get ft name) as [x|]; auto.
  rewrite map_fnth. destruct (f_nth fs (fi_at x)) as [[t k]|]; simpl; rewrite ?map_frozen; reflexivity.
Qed.
