(** * Proofs about the type checks *)
From Coq Require Import String Lia ZifyBool ZifyNat.
From Verif Require Import ReadFacts WriteFacts TypedSpec.
Import ListNotations.
Open Scope Z_scope.

Lemma tlookup_sees G id t : tlookup G id = Some t <-> sees G id t.
Proof.
  induction G as [|[i u] G IH]; cbn.
  - split; [discriminate|]. intros ([|]&r&E&_); discriminate.
  - destruct (String.eqb_spec i id) as [->|N].
    + split.
      * intros [= <-]. exists [], G. split; auto.
      * intros ([|[j x] l]&r&E&D); cbn in E; [congruence|]. injection E as -> -> ->. cbn in D. tauto.
    + rewrite IH. split.
      * intros (l&r&->&D). exists ((i, u) :: l), r. split; auto. cbn. intros [|]; auto.
      * intros ([|[j x] l]&r&E&D); cbn in E; [congruence|]. injection E as -> -> ->.
        exists l, r. split; auto. cbn in D. tauto.
Qed.

Lemma ct_okb_iff t : forall v, ct_okb t v = true <-> ct_ok t v.
Proof.
  split; [apply ct_okb_ok|]. revert v.
  induction t as [s|n t IH|n|w]; intros v; destruct v; simpl; try contradiction; auto.
  - intros [<- H]. rewrite Nat.eqb_refl. cbn. apply forallb_forall. rewrite Forall_forall in H. auto.
  - intros [-> H]. rewrite Nat.eqb_refl. cbn. apply forallb_forall. rewrite Forall_forall in H.
    intros x Hx. destruct (H x Hx) as (z&->&B). unfold byte_ok in B. lia.
  - intros [-> H]. rewrite Nat.eqb_refl. cbn. lia.
Qed.

Lemma str_ok_iff m cs : str_ok m cs = true <-> string_of m cs.
Proof.
  unfold str_ok, string_of. split.
  - intros H. apply andb_true_iff in H. destruct H as [H L]. apply andb_true_iff in H.
    destruct H as [H B]. apply Nat.eqb_eq in H. destruct (exists_last (l := cs)) as (l&z&->).
    { destruct cs; [discriminate|congruence]. }
    rewrite last_last in L. apply Z.eqb_eq in L. subst z. exists l. split; auto.
    rewrite app_length in H. cbn in H. split; [lia|].
    rewrite forallb_app in B. apply andb_true_iff in B. destruct B as [B _].
    rewrite forallb_forall in B. apply Forall_forall. intros x Hx. apply B in Hx. unfold byte_ok. lia.
  - intros (l&->&<-&B). rewrite app_length, last_last, forallb_app. cbn.
    replace (Nat.eqb (length l + 1) (S (length l))) with true by (symmetry; apply Nat.eqb_eq; lia).
    cbn. rewrite !andb_true_r. apply forallb_forall. rewrite Forall_forall in B. intros x Hx.
    apply B in Hx. unfold byte_ok in Hx. lia.
Qed.

Lemma forallb_Forall {A} (f : A -> bool) (P : A -> Prop) l :
  (forall x, f x = true <-> P x) -> (forallb f l = true <-> Forall P l).
Proof.
  intros E. rewrite forallb_forall, Forall_forall. split; intros H x Hx; apply E, H, Hx.
Qed.

Lemma constr_ok_iff t k : constr_ok t k = true <-> constraint_fits t k.
Proof.
  assert (N : forall (b : bool) (P : Prop), (b = true <-> P) ->
     (match t with FFixed (TScalar _) _ | FFixed (TFloat _) _ => b | _ => false end = true
      <-> numeric t /\ P)).
  { intros b P E. unfold numeric.
    destruct t as [[s|m e|m|w] n| | | | | |];
      try (split; [discriminate|intros [(q&[(u&X)|(u&X)]) _]; discriminate]);
      rewrite E; split; [intros; split; eauto|tauto|intros; split; eauto|tauto]. }
  destruct k as [|o s lit|s lits|neg lit|neg lit|lits|o w lit|w lits|f]; cbn [constr_ok constraint_fits].
  - tauto.
  - apply N. reflexivity.
  - apply N. apply forallb_Forall. reflexivity.
  - destruct t as [[s|m e|m|w] n|e l b| | | | |];
      try (split; [discriminate|intros [_ [(?&?&?&X)|(?&?&?&X)]]; discriminate]).
    + rewrite ct_okb_iff. cbn [has_ty]. split; [intros; split; eauto 6|tauto].
    + cbn [has_ty]. destruct lit; try (split; [discriminate|intros [[] _]]).
      rewrite (forallb_Forall _ (ct_ok e)); [|apply ct_okb_iff]. split; [intros; split; eauto 6|tauto].
  - destruct t as [[s|m e|m|w] n| | | | | |]; try (split; [discriminate|intros (?&?&X&_); discriminate]).
    rewrite str_ok_iff. split; [eauto|]. intros (?&?&[= <- <-]&X). exact X.
  - destruct t as [[s|m e|m|w] n| | | | | |]; try (split; [discriminate|intros (?&?&X&_); discriminate]).
    rewrite (forallb_Forall _ (string_of m)); [|apply str_ok_iff].
    split; [eauto|]. intros (?&?&[= <- <-]&X). exact X.
  - apply N. rewrite andb_true_iff, ct_okb_iff. 
    destruct o; intuition (try discriminate).
  - apply N. apply forallb_Forall. intros x. apply ct_okb_iff.
  - tauto.
Qed.

Lemma a_len_alt al : a_len al = length (alternatives al).
Proof. induction al; cbn; congruence. Qed.

Lemma flat_iff t : flat t = true <-> simple t.
Proof.
  unfold simple. destruct t; cbn; split; intros H; try reflexivity; try discriminate;
    try (split; intros; discriminate); destruct H as [A B]; exfalso; [eapply A|eapply B]; reflexivity.
Qed.

Lemma sty_eqb_iff a b : sty_eqb a b = true <-> a = b.
Proof.
  destruct a as [w [|]|], b as [w' [|]|]; cbn; try (split; congruence);
    rewrite ?andb_false_r, ?andb_true_r; try (split; congruence); rewrite Nat.eqb_eq; split; congruence.
Qed.

Lemma len_typed_iff G id : len_typed G (LenField id) = true <-> exists s n, sees G id (FFixed (TScalar s) n).
Proof.
  cbn. split.
  - intros H. destruct (tlookup G id) as [t|] eqn:E; [|discriminate]. apply tlookup_sees in E.
    destruct t as [[s| | |] n| | | | | |]; try discriminate. eauto.
  - intros (s&n&S). apply tlookup_sees in S. rewrite S. reflexivity.
Qed.

Lemma tag_typed_iff G id s (cases : list (sty * Z)) n :
  guide_typed G (GField id s cases) n = true <-> (exists m, sees G id (FFixed (TScalar s) m)) /\ length cases = n.
Proof.
  cbn. split.
  - intros H. destruct (tlookup G id) as [t|] eqn:E; [|discriminate]. apply tlookup_sees in E.
    destruct t as [[s'| | |] m| | | | | |]; try discriminate. apply andb_true_iff in H.
    destruct H as [H1 H2]. apply sty_eqb_iff in H1. apply Nat.eqb_eq in H2. subst. eauto.
  - intros [[m S] <-]. apply tlookup_sees in S. rewrite S, Nat.eqb_refl.
    rewrite (proj2 (sty_eqb_iff s s) eq_refl). reflexivity.
Qed.

Definition fits G t k := type_fits G t /\ constraint_fits t k.

Lemma typed_iff :
  (forall t G, typed_ty G t = true <-> type_fits G t /\ forall G' t' k', inside G t G' t' k' -> fits G' t' k') /\
  (forall fs G, typed_fields G fs = true <-> forall G' t' k', occurs G fs G' t' k' -> fits G' t' k') /\
  (forall al G, typed_alts G al = true <->
     forall t k, In (t, k) (alternatives al) ->
       simple t /\ fits G t k /\ forall G' t' k', inside G t G' t' k' -> fits G' t' k').
Proof.
  apply schema_mutind.
  - intros t n G. cbn. split; [|tauto]. intros _. split; [exact I|]. intros ? ? ? X. inversion X.
  - intros e [id|p ids] b G; cbn [typed_ty type_fits].
    + rewrite len_typed_iff. split; [|tauto]. intros H. split; auto. intros ? ? ? X. inversion X.
    + cbn. split; [|tauto]. intros _. split; auto. intros ? ? ? X. inversion X.
  - intros fs IH G. cbn [typed_ty type_fits]. rewrite IH. split.
    + intros H. split; auto. intros ? ? ? X. inversion X; subst. auto.
    + intros [_ H] ? ? ? X. apply H. constructor. exact X.
  - intros n fs IH G. cbn [typed_ty type_fits]. rewrite IH. split.
    + intros H. split; auto. intros ? ? ? X. inversion X; subst. auto.
    + intros [_ H] ? ? ? X. apply H. constructor. exact X.
  - intros fs IH n l b G. cbn [typed_ty type_fits]. rewrite andb_true_iff, IH.
    assert (E : len_typed G l = true <->
      match l with LenField id => exists s m, sees G id (FFixed (TScalar s) m) | LenComp _ _ => True end).
    { destruct l; [apply len_typed_iff|cbn; tauto]. }
    rewrite E. split.
    + intros [H L]. split; [exact L|]. intros ? ? ? X. inversion X; subst. auto.
    + intros [L H]. split; auto. intros ? ? ? X. apply H. constructor. exact X.
  - intros b IH p ids G. cbn [typed_ty type_fits]. rewrite andb_true_iff, flat_iff, IH. split.
    + intros [F [T H]]. split; auto. intros ? ? ? X. inversion X; subst; auto. split; cbn; auto.
    + intros [F H]. split; auto. split.
      * exact (proj1 (H _ _ _ (in_base G b p ids))).
      * intros ? ? ? X. apply H. constructor. exact X.
  - intros g al IH G. cbn [typed_ty type_fits]. rewrite andb_true_iff, IH, a_len_alt.
    assert (E : guide_typed G g (length (alternatives al)) = true <->
      match g with
      | GField id s cases =>
          (exists n, sees G id (FFixed (TScalar s) n)) /\ length cases = length (alternatives al)
      | GComp _ _ _ cases => length cases = length (alternatives al)
      | GLadder brs => length brs = length (alternatives al)
      end).
    { destruct g; [apply tag_typed_iff|cbn; apply Nat.eqb_eq|cbn; apply Nat.eqb_eq]. }
    rewrite E. clear E. split.
    + intros [Hg H]. split; [split; [|exact Hg]; intros t k Hi; exact (proj1 (H t k Hi))|].
      intros ? ? ? X. inversion X; subst.
      * match goal with Y : In _ _ |- _ => exact (proj1 (proj2 (H _ _ Y))) end.
      * match goal with Y : In _ _ |- _ => apply (proj2 (proj2 (H _ _ Y))) end. assumption.
    + intros [[S Hg] H]. split; auto. intros t k Hi. split; [exact (S _ _ Hi)|]. split.
      * apply H. constructor. exact Hi.
      * intros ? ? ? X. apply H. econstructor; eauto.
  - intros G. cbn. split; [|reflexivity]. intros _ ? ? ? X. inversion X.
  - intros id t IHt k fs IHf G. cbn [typed_fields]. rewrite !andb_true_iff, IHt, IHf, constr_ok_iff. split.
    + intros [[[T H] K] R] ? ? ? X. inversion X; subst; auto. split; auto.
    + intros H. destruct (H _ _ _ (occ_here G id t k fs)) as [T K]. split; [split; [split; [exact T|]|exact K]|].
      * intros; apply H. apply occ_inside. auto.
      * intros; apply H. apply occ_later. auto.
  - intros G. cbn. tauto.
  - intros t IHt k al IHa G. cbn [typed_alts alternatives In].
    rewrite !andb_true_iff, flat_iff, IHt, constr_ok_iff, IHa. split.
    + intros [[[F [T H]] K] R] t' k' [[= <- <-]|Hi]; [|apply R; exact Hi].
      split; auto. split; auto. split; auto.
    + intros H. destruct (H t k (or_introl eq_refl)) as (S&[T K]&R).
      split; [split; [split; [exact S|split; auto]|exact K]|]. intros t' k' Hi. apply H. auto.
Qed.

Lemma typed_fits fs :
  typed fs = true <-> forall G t k, occurs [] fs G t k -> type_fits G t /\ constraint_fits t k.
Proof. apply (proj1 (proj2 typed_iff)). Qed.

Lemma no_bool_iff t : no_bool t = true <-> ~ bool_in t.
Proof.
  induction t as [[w b|]|n t IH|n|w]; cbn.
  - split; auto. intros _ X. inversion X.
  - split; [discriminate|]. intros H. exfalso. apply H. constructor.
  - rewrite IH. split; intros H X; apply H; [inversion X; auto|constructor; auto].
  - split; auto. intros _ X. inversion X.
  - split; auto. intros _ X. inversion X.
Qed.

Lemma tame_iff t k : tame t k = true <-> no_such_literal t k.
Proof.
  destruct k as [|o [a b|] lit|[a b|] lits|neg lit|neg lit|lits|o w lit|w lits|f]; cbn; try tauto;
    try (split; [discriminate|tauto]); try (split; [intros _ X; congruence|reflexivity]).
  - destruct t as [[s|m e|m|w] n| | | | | |];
      try (split; [intros _ _ w' n'; discriminate|reflexivity]).
    split; [discriminate|]. intros H. exfalso. apply (H ltac:(discriminate) w n). reflexivity.
  - destruct t as [[s|m e|m|w] n| | | | | |];
      try (split; [intros _ _ w' n'; discriminate|reflexivity]).
    split; [discriminate|]. intros H. exfalso. apply (H ltac:(discriminate) w n). reflexivity.
Qed.

Definition harmless t k := no_bools t /\ no_such_literal t k.

Lemma plain_iff :
  (forall t G, plain_ty t = true <-> no_bools t /\ forall G' t' k', inside G t G' t' k' -> harmless t' k') /\
  (forall fs G, plain_fields fs = true <-> forall G' t' k', occurs G fs G' t' k' -> harmless t' k') /\
  (forall al G, plain_alts al = true <->
     forall t k, In (t, k) (alternatives al) ->
       harmless t k /\ forall G' t' k', inside G t G' t' k' -> harmless t' k').
Proof.
  apply schema_mutind.
  - intros t n G. cbn. rewrite no_bool_iff. split; [|tauto]. intros H. split; auto.
    intros ? ? ? X. inversion X.
  - intros e l b G. cbn. rewrite no_bool_iff. split; [|tauto]. intros H. split; auto.
    intros ? ? ? X. inversion X.
  - intros fs IH G. cbn [plain_ty no_bools]. rewrite (IH []). split.
    + intros H. split; auto. intros ? ? ? X. inversion X; subst. eauto.
    + intros [_ H] ? ? ? X. eapply H. constructor. exact X.
  - intros n fs IH G. cbn [plain_ty no_bools]. rewrite (IH []). split.
    + intros H. split; auto. intros ? ? ? X. inversion X; subst. eauto.
    + intros [_ H] ? ? ? X. eapply H. constructor. exact X.
  - intros fs IH n l b G. cbn [plain_ty no_bools]. rewrite (IH []). split.
    + intros H. split; auto. intros ? ? ? X. inversion X; subst. eauto.
    + intros [_ H] ? ? ? X. eapply H. constructor. exact X.
  - intros b IH p ids G. cbn [plain_ty no_bools]. rewrite (IH G). split.
    + intros [T H]. split; auto. intros ? ? ? X. inversion X; subst; eauto. split; cbn; auto.
    + intros [_ H]. split.
      * exact (proj1 (H _ _ _ (in_base G b p ids))).
      * intros ? ? ? X. eapply H. constructor. exact X.
  - intros g al IH G. cbn [plain_ty no_bools]. rewrite (IH G). split.
    + intros H. split; auto. intros ? ? ? X. inversion X; subst.
      * match goal with Y : In _ _ |- _ => exact (proj1 (H _ _ Y)) end.
      * match goal with Y : In _ _, Z : inside _ _ _ _ _ |- _ => exact (proj2 (H _ _ Y) _ _ _ Z) end.
    + intros [_ H] t k Hi. split.
      * apply (H G). constructor. exact Hi.
      * intros ? ? ? X. eapply H. eapply in_union; eauto.
  - intros G. cbn. split; [|reflexivity]. intros _ ? ? ? X. inversion X.
  - intros id t IHt k fs IHf G. cbn [plain_fields].
    rewrite !andb_true_iff, (IHt G), (IHf ((id, t) :: G)), tame_iff. split.
    + intros [[[T H] K] R] ? ? ? X. inversion X; subst; eauto. split; auto.
    + intros H. destruct (H _ _ _ (occ_here G id t k fs)) as [T K].
      split; [split; [split; [exact T|]|exact K]|].
      * intros; eapply H. apply occ_inside. eauto.
      * intros; eapply H. apply occ_later. eauto.
  - intros G. cbn. tauto.
  - intros t IHt k al IHa G. cbn [plain_alts alternatives In].
    rewrite !andb_true_iff, (IHt G), tame_iff, (IHa G). split.
    + intros [[[T H] K] R] t' k' [[= <- <-]|Hi]; [|apply R; exact Hi]. split; auto. split; auto.
    + intros H. destruct (H t k (or_introl eq_refl)) as ([T K]&R).
      split; [split; [split; auto|exact K]|]. intros t' k' Hi. apply H. auto.
Qed.

Lemma plain_fits fs :
  plain_fields fs = true <-> forall G t k, occurs [] fs G t k -> no_bools t /\ no_such_literal t k.
Proof. apply (proj1 (proj2 plain_iff)). Qed.
