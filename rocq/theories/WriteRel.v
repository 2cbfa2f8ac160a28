(** Two writes compared: builds, unassignable slots, records on their own. *)
From Coq Require Import ZifyBool ZifyNat.
From Verif Require Import Read Write WSpec Typing PropDefs BytesFacts ProgFacts ReadFacts ReadMore Safety.
From Verif Require Import ReadLemmas LayoutFacts WriteFacts WriteMain WriteLoc WriteErr.

(** ** Builds (C13, C28) *)

Section Widths.
Variables c c' : cfg.
Hypothesis Hz : c_szw c = c_szw c'.

Lemma to_size_same z : to_size c z = to_size c' z.
Proof. unfold to_size. rewrite Hz. auto. Qed.

Lemma implied_same id t v : implied c id t v = implied c' id t v.
Proof.
  unfold implied. destruct (ident_is _ _); auto. destruct (ident_is _ _); auto.
  destruct t; auto. destruct g; auto. destruct v; auto. unfold value_at.
  destruct (nth_error cases i) as [[s' z]|]; auto. rewrite to_size_same. auto.
Qed.

Lemma derive_fold_same id fs : forall vs d, derive_fold c id fs vs d = derive_fold c' id fs vs d.
Proof.
  induction fs; intros [|v vs] d; simpl; auto. rewrite implied_same.
  destruct (implied c' id t v) as [[|]|]; auto.
Qed.

Lemma derive_value_same fs vs id t n : derive_value c fs vs id t n = derive_value c' fs vs id t n.
Proof.
  unfold derive_value. destruct t; auto. rewrite derive_fold_same.
  destruct (derive_fold c' id fs vs _) as [d|]; auto.
  unfold fits_declared_width. rewrite to_size_same. rewrite Hz. auto.
Qed.

Lemma deduce_len_same e l : deduce_len c e l = deduce_len c' e l.
Proof.
  destruct l; simpl.
  - destruct (lookup e id) as [[]|]; auto. rewrite to_size_same. auto.
  - destruct (lookups e ids); auto. rewrite to_size_same. auto.
Qed.

End Widths.

Section Builds.
Variables c c' : cfg.
Hypothesis Hb : same_build c c'.

Lemma write_const_same t n v : ct_wf t = true ->
  match t with TScalar _ | TFloat _ => (n <= csize t)%nat | _ => n = csize t end -> ct_ok t v ->
  wmem (write_const c t n v) = wmem (write_const c' t n v).
Proof. intros. rewrite !write_const_ok by auto. destruct Hb as (-> & _). auto. Qed.

Lemma verify_then_write_same fs vs id t n v : ct_wf t = true ->
  match t with TScalar _ | TFloat _ => (n <= csize t)%nat | _ => n = csize t end -> ct_ok t v ->
  wmem (verify_then_write c fs vs id t n v) = wmem (verify_then_write c' fs vs id t n v).
Proof.
  intros. unfold verify_then_write. destruct (has_cond_obligation fs id); [|apply write_const_same; auto].
  destruct v; auto. rewrite (to_size_same c c' (proj1 (proj2 Hb))). destruct (verify_cond _ _ _ _ _) as [[|]|]; auto.
  apply write_const_same; auto.
Qed.

Lemma bind_same {E A B} (p p' : wprog E A) (f f' : A -> wprog E B) :
  wmem p = wmem p' -> (forall a, wmem (f a) = wmem (f' a)) ->
  wmem (wbind p f) = wmem (wbind p' f').
Proof.
  intros Hp Hf. rewrite !wmem_bind, Hp. destruct (wmem p') as [[a| | | |] o]; auto. rewrite Hf. auto.
Qed.

Lemma maperr_same {E E' A} (g : E -> E') (p p' : wprog E A) : wmem p = wmem p' ->
  wmem (wmaperr g p) = wmem (wmaperr g p').
Proof. intros H. rewrite !wmem_maperr, H. auto. Qed.

Lemma wfor_same {E A} (l : list A) (f f' : A -> wprog E unit) :
  Forall (fun a => wmem (f a) = wmem (f' a)) l -> wmem (wfor l f) = wmem (wfor l f').
Proof.
  induction 1; simpl; auto. apply bind_same; auto.
Qed.

Lemma write_same_build :
  (forall t fs vs id mem k v G seen, wf_ty seen t = true -> typed_ty G t = true ->
     constr_ok t k = true -> has_ty t v ->
     wmem (write_ty c fs vs id mem k t v) = wmem (write_ty c' fs vs id mem k t v)) /\
  (forall gs fs vs ws G seen, wf_fields seen gs = true -> typed_fields G gs = true -> has_fields gs ws ->
     wmem (write_fields c fs vs gs ws) = wmem (write_fields c' fs vs gs ws)) /\
  (forall al fs vs id i v G seen, wf_alts seen al = true -> typed_alts G al = true -> has_alt al i v ->
     wmem (write_alts c fs vs id al i v) = wmem (write_alts c' fs vs id al i v)).
Proof.
  apply schema_mutind.
  - intros t n fs vs id mem k v G seen Hw Ht Hk Hv. cbn [write_ty wf_ty has_ty] in *.
    apply andb_true_iff in Hw. destruct Hw as [W1 W2].
    assert (W3 : match t with TScalar _ | TFloat _ => (n <= csize t)%nat | _ => n = csize t end) by (destruct t; lia).
    unfold write_fixed. destruct (is_derived fs id).
    + rewrite (derive_value_same c c' (proj1 (proj2 Hb))). unfold derive_value. destruct t; auto.
      destruct (derive_fold _ _ _ _ _) as [d|]; auto. destruct (negb (d_agreed d)); auto.
      destruct (negb _); auto. apply bind_same; auto. intros _.
      apply verify_then_write_same; auto. simpl. apply conv_in.
    + destruct mem; cbn [andb]; [|apply verify_then_write_same; auto].
      unfold is_frozen. rewrite frozen_pinned. destruct (pinned t k) as [w|] eqn:Ep.
      * apply verify_then_write_same; auto. eapply pinned_ok; eauto.
      * apply verify_then_write_same; auto.
  - intros elt l b fs vs id mem k v G seen Hw Ht Hk Hv. cbn [write_ty wf_ty has_ty] in *.
    apply andb_true_iff in Hw. destruct Hw as [W1 W2]. destruct v; auto. apply bind_same.
    + unfold verify_len. destruct l; auto. rewrite (deduce_len_same c c' (proj1 (proj2 Hb))). auto.
    + intros _. rewrite !write_var_ok by auto. destruct Hb as (-> & _). auto.
  - intros gs IH fs vs id mem k v G seen Hw Ht Hk Hv. cbn [write_ty wf_ty typed_ty has_ty] in *.
    destruct v; auto. apply maperr_same. eapply IH; eauto.
  - intros n gs IH fs vs id mem k v G seen Hw Ht Hk Hv. cbn [write_ty wf_ty typed_ty has_ty] in *.
    destruct v; auto. destruct (Nat.eqb _ _); auto. destruct Hv as [_ Hv]. apply wfor_same.
    eapply Forall_impl; [|exact Hv]. intros [] Hx; try tauto. apply maperr_same. eapply IH; eauto.
  - intros gs IH recsz l b fs vs id mem k v G seen Hw Ht Hk Hv. cbn [write_ty wf_ty typed_ty has_ty] in *.
    rewrite !andb_true_iff in *; repeat match goal with H : _ /\ _ |- _ => destruct H end. destruct v; auto. apply bind_same.
    + unfold verify_len. destruct l; auto. rewrite (deduce_len_same c c' (proj1 (proj2 Hb))). auto.
    + intros _. apply wfor_same. eapply Forall_impl; [|exact Hv]. intros [] Hx; try tauto.
      apply maperr_same. eapply IH; eauto; tauto.
  - intros b IH p ids fs vs id mem k v G seen Hw Ht Hk Hv. cbn [write_ty wf_ty typed_ty has_ty] in *.
    rewrite !andb_true_iff in *; repeat match goal with H : _ /\ _ |- _ => destruct H end. destruct (lookups _ ids) as [args|]; auto.
    destruct (p args), v; auto. eapply IH; eauto; try tauto.
  - intros g al IH fs vs id mem k v G seen Hw Ht Hk Hv. cbn [write_ty wf_ty typed_ty has_ty] in *.
    rewrite !andb_true_iff in *; repeat match goal with H : _ /\ _ |- _ => destruct H end. destruct v; auto.
    assert (Ha : wmem (write_alts c fs vs id al i v) = wmem (write_alts c' fs vs id al i v))
      by (eapply IH; eauto; tauto).
    destruct g; auto; destruct (deduce_type _ _) as [[j|]|]; auto; destruct (Nat.eqb j i); auto.
  - intros fs vs [|]; auto.
  - intros id t IHt k gs IHgs fs vs [|w ws] G seen Hw Ht Hv; cbn [write_fields wf_fields typed_fields has_fields] in *; auto.
    rewrite !andb_true_iff in *; repeat match goal with H : _ /\ _ |- _ => destruct H end. apply bind_same.
    + apply maperr_same. apply bind_same; auto. intros _. eapply IHt; eauto; tauto.
    + intros _. eapply IHgs; eauto; try tauto.
  - auto.
  - intros t IHt k al IHal fs vs id i v G seen Hw Ht Hv. cbn [write_alts wf_alts typed_alts has_alt] in *.
    rewrite !andb_true_iff in *; repeat match goal with H : _ /\ _ |- _ => destruct H end. destruct i.
    + apply bind_same; auto. intros _. eapply IHt; eauto; tauto.
    + eapply IHal; eauto; tauto.
Qed.

Lemma stream_cast_same fs vs : wf fs = true -> typed fs = true -> has_fields fs vs ->
  wmem (stream_cast c fs vs) = wmem (stream_cast c' fs vs).
Proof. intros. eapply write_same_build; eauto. Qed.

End Builds.

(** ** Slots that cannot be assigned (C20) *)

Lemma memb_app id a b : memb id (a ++ b) = memb id a || memb id b.
Proof. unfold memb. apply existsb_app. Qed.

Lemma is_derived_sources fs id : is_derived fs id = memb id (sources fs).
Proof.
  induction fs; [reflexivity|]. rewrite is_derived_cons. cbn [sources]. rewrite memb_app, <- IHfs. f_equal.
  destruct t as [|elt [i|] b| | |gs r [i|] b| |[i s cs| |] al]; simpl; auto;
    rewrite ?orb_false_r; apply String.eqb_sym.
Qed.

Lemma same_refl_atomic t v v' : atomic t = true -> same_assignable_ty t v v' -> v = v'.
Proof.
  assert (H : (forall t, atomic t = true -> forall v v', same_assignable_ty t v v' -> v = v') /\
              (forall fs : fields, True) /\
              (forall al, atomic_alts al = true -> forall i v v', same_assignable_alts al i v v' -> v = v')).
  { apply schema_mutind; auto; try (simpl; intros; discriminate).
    - intros b IH p ids Ha w w' H. cbn [atomic] in Ha. simpl in H. destruct w, w'; auto. f_equal. eauto.
    - intros g al IH Ha w w' H. cbn [atomic] in Ha. simpl in H. destruct w, w'; auto.
      destruct H as [-> H]. f_equal. eauto.
    - intros u IHu k al IHal Ha i w w' H. cbn [atomic_alts] in Ha. apply andb_true_iff in Ha.
      destruct i; simpl in H; [apply IHu; tauto|]. eapply IHal; eauto; tauto. }
  destruct H as (H & _). intros Ha Hs. eauto.
Qed.

Lemma same_lookup F id : forall fs vs vs', same_assignable_in F fs vs vs' ->
  match field_of fs id with
  | Some (t, k) => overwritten F id t k = false /\ atomic t = true
  | None => True
  end -> lookup (mk_env fs vs) id = lookup (mk_env fs vs') id.
Proof.
  induction fs; intros vs vs' H Hf.
  - simpl. auto.
  - destruct vs as [|v vs], vs' as [|v' vs']; cbn [same_assignable_in] in H; try discriminate; try reflexivity.
    destruct H as [H1 H2]. cbn [mk_env lookup field_of] in *.
    destruct (String.eqb_spec id0 id).
    + subst. destruct Hf as [Hf Ha]. destruct (H1 Hf) as [H _]. f_equal.
      eapply same_refl_atomic; eauto.
    + auto.
Qed.

Lemma same_lookups F ids vs vs' : same_assignable F vs vs' -> reads_assignable F ids = true ->
  lookups (mk_env F vs) ids = lookups (mk_env F vs') ids.
Proof.
  intros Hs. induction ids as [|id ids IH]; cbn [reads_assignable forallb lookups]; auto.
  intros H. apply andb_true_iff in H. destruct H as [H1 H2]. fold (reads_assignable F ids) in H2.
  rewrite (same_lookup F id F vs vs' Hs).
  - rewrite IH by auto. auto.
  - destruct (field_of F id) as [[t k]|]; auto. apply andb_true_iff in H1. destruct H1 as [H1 H1'].
    split; auto. destruct (overwritten F id t k); auto; discriminate.
Qed.

Lemma forall2_len {A B} (R : A -> B -> Prop) l l' : Forall2 R l l' -> length l = length l'.
Proof. induction 1; simpl; auto. Qed.

Lemma forall2_impl {A B} (R R' : A -> B -> Prop) l l' : (forall a b, R a b -> R' a b) ->
  Forall2 R l l' -> Forall2 R' l l'.
Proof. induction 2; auto. Qed.

Lemma same_size id t v v' : same_assignable_ty t v v' -> ident_is (len_target t) id = true ->
  val_size v = val_size v'.
Proof.
  destruct t; simpl; try discriminate; intros H _.
  - subst; auto.
  - destruct v, v'; try congruence. simpl. rewrite (forall2_len _ _ _ H). auto.
Qed.

Lemma same_implied c id t v v' : same_assignable_ty t v v' -> implied c id t v = implied c id t v'.
Proof.
  intros H. unfold implied. destruct (ident_is (len_target t) id) eqn:E.
  - rewrite (same_size _ _ _ _ H E). auto.
  - destruct (ident_is (disc_target t) id); auto. destruct t; auto. destruct g; auto.
    simpl in H. destruct v, v'; try congruence. destruct H as [-> _]. auto.
Qed.

Lemma same_derive c F id : forall fs vs vs' d, same_assignable_in F fs vs vs' ->
  derive_fold c id fs vs d = derive_fold c id fs vs' d.
Proof.
  induction fs; intros vs vs' d H.
  - destruct vs, vs'; simpl in H; try discriminate; reflexivity.
  - destruct vs as [|v vs], vs' as [|v' vs']; cbn [same_assignable_in] in H; try discriminate; try reflexivity.
    destruct H as [H1 H2]. cbn [derive_fold].
    assert (implied c id t v = implied c id t v') as ->.
    { destruct (overwritten F id0 t c0) eqn:E.
      - destruct t; try discriminate. reflexivity.
      - apply same_implied. apply H1. auto. }
    destruct (implied c id t v') as [[z|]|]; auto.
Qed.

Lemma same_alt_size id : forall al i v v' t k, same_assignable_alts al i v v' ->
  a_nth i al = Some (t, k) -> ident_is (len_target t) id = true -> val_size v = val_size v'.
Proof.
  induction al; intros [|i] v v' t' k' H Hn Ht; simpl in *; try discriminate.
  - inversion Hn; subst. eapply same_size; eauto. tauto.
  - eauto.
Qed.

Lemma same_cond F id w : forall fs vs vs' e e', same_assignable_in F fs vs vs' ->
  (forall ids, reads_assignable F ids = true -> lookups e ids = lookups e' ids) ->
  steady_in F fs = true -> verify_cond e id w fs vs = verify_cond e' id w fs vs'.
Proof.
  induction fs; intros vs vs' e e' H He Hs.
  - destruct vs, vs'; simpl in H; try discriminate; reflexivity.
  - destruct vs as [|v vs], vs' as [|v' vs']; cbn [same_assignable_in] in H; try discriminate; try reflexivity.
    destruct H as [H1 H2]. cbn [verify_cond steady_in] in *. apply andb_true_iff in Hs. destruct Hs as [S1 S2].
    rewrite (IHfs vs vs' e e') by auto.
    assert (cond_agrees e id w t v = cond_agrees e' id w t v') as ->; auto.
    destruct (overwritten F id0 t c) eqn:E; [destruct t; try discriminate; reflexivity|].
    destruct (H1 eq_refl) as [H _]. clear H1 H2 IHfs. unfold cond_agrees.
    destruct (ident_is (cond_target t) id) eqn:Ec.
    + destruct t; auto. cbn [steady_ty] in S1. apply andb_true_iff in S1. destruct S1 as [S1 _].
      simpl in H. destruct v, v'; try congruence. rewrite (He _ S1).
      destruct (lookups e' ids); auto. destruct (p l); auto.
      rewrite (same_size id t v v'); auto.
    + destruct t; auto. simpl in H. destruct v, v'; try congruence. destruct H as [-> H].
      destruct (a_nth i0 al) as [[t' k']|] eqn:En; auto.
      destruct (ident_is (len_target t') id) eqn:Et; auto. rewrite (same_alt_size _ _ _ _ _ _ _ H En Et). auto.
Qed.

Section Same.
Variables (c : cfg).

Definition sa_env (F : fields) (V V' : list val) : Prop :=
  (forall ids, reads_assignable F ids = true -> lookups (mk_env F V) ids = lookups (mk_env F V') ids) /\
  (forall id d, derive_fold c id F V d = derive_fold c id F V' d) /\
  (forall id w, verify_cond (mk_env F V) id w F V = verify_cond (mk_env F V') id w F V').

Lemma sa_env_intro F V V' : same_assignable F V V' -> steady F = true -> sa_env F V V'.
Proof.
  intros H Hs. split; [|split].
  - intros ids. apply same_lookups; auto.
  - intros id d. eapply same_derive; eauto.
  - intros id w. eapply same_cond; eauto. intros ids. apply same_lookups; auto.
Qed.

Lemma sa_fixed F V V' id mem k t n v v' : sa_env F V V' ->
  (v = v' \/ mem = true /\ overwritten F id (FFixed t n) k = true) ->
  write_fixed c F V id mem k t n v = write_fixed c F V' id mem k t n v'.
Proof.
  intros (H1 & H2 & H3) Hv.
  assert (Hd : derive_value c F V id t n = derive_value c F V' id t n).
  { unfold derive_value. destruct t; auto. rewrite H2. auto. }
  assert (Hw : forall x, verify_then_write c F V id t n x = verify_then_write c F V' id t n x).
  { intros x. unfold verify_then_write. destruct (has_cond_obligation F id); auto. destruct x; auto.
    rewrite H3. auto. }
  unfold write_fixed. rewrite Hd. rewrite is_derived_sources. unfold is_frozen. rewrite frozen_pinned.
  cbn [overwritten] in Hv. destruct (memb id (sources F)) eqn:E.
  - destruct (derive_value c F V' id t n); auto. rewrite Hw. auto.
  - destruct Hv as [->|[-> Hv]].
    + rewrite !Hw. destruct (mem && _); auto. destruct (pinned t k); auto.
    + destruct (pinned t k); [|discriminate]. simpl. apply Hw.
Qed.

Lemma wfor_forall2 {E A} (l l' : list A) (f : A -> wprog E unit) :
  Forall2 (fun x x' => f x = f x') l l' -> wfor l f = wfor l' f.
Proof. induction 1; simpl; auto. rewrite H, IHForall2. auto. Qed.

Lemma sa_len F V V' l z : sa_env F V V' -> len_steady F l = true ->
  verify_len c (mk_env F V) l z = verify_len c (mk_env F V') l z.
Proof.
  intros (H1 & _) Hl. destruct l; auto. unfold verify_len. simpl in *. rewrite H1; auto.
Qed.

Lemma sa_guide F V V' g : sa_env F V V' -> guide_steady F g = true -> is_match_field g = false ->
  deduce_type (mk_env F V) g = deduce_type (mk_env F V') g.
Proof.
  intros (H1 & _) Hg Hm. destruct g; try discriminate; simpl in *.
  - rewrite H1; auto.
  - clear Hm. induction brs as [|[p ids] brs IH]; simpl in *; auto.
    apply andb_true_iff in Hg. destruct Hg as [G1 G2]. rewrite H1; auto.
    destruct (lookups _ ids); auto. destruct (p l); auto. rewrite IH; auto.
Qed.

Lemma sa_write :
  (forall t F V V' id mem k v v', sa_env F V V' -> steady_ty F t = true ->
     (same_assignable_ty t v v' \/ mem = true /\ overwritten F id t k = true) ->
     write_ty c F V id mem k t v = write_ty c F V' id mem k t v') /\
  (forall gs F V V' ws ws', sa_env F V V' -> steady_in F gs = true ->
     same_assignable_in F gs ws ws' ->
     write_fields c F V gs ws = write_fields c F V' gs ws') /\
  (forall al F V V' id i v v', sa_env F V V' -> steady_alts F al = true ->
     same_assignable_alts al i v v' ->
     write_alts c F V id al i v = write_alts c F V' id al i v').
Proof.
  apply schema_mutind.
  - intros t n F V V' id mem k v v' He Hs Hv. apply sa_fixed; auto.
  - intros elt l b F V V' id mem k v v' He Hs [Hv|[_ Hv]]; [|discriminate]. simpl in Hv. subst v'.
    cbn [write_ty steady_ty] in *. destruct v; auto. rewrite (sa_len F V V'); auto.
  - intros gs IH F V V' id mem k v v' He Hs [Hv|[_ Hv]]; [|discriminate].
    cbn [write_ty steady_ty same_assignable_ty] in *. destruct v, v'; try congruence. f_equal.
    apply IH; auto. apply sa_env_intro; auto.
  - intros n gs IH F V V' id mem k v v' He Hs [Hv|[_ Hv]]; [|discriminate].
    cbn [write_ty steady_ty same_assignable_ty] in *. destruct v, v'; try congruence.
    rewrite (forall2_len _ _ _ Hv). destruct (Nat.eqb _ _); auto. apply wfor_forall2.
    eapply forall2_impl; [|exact Hv]. intros x x' H. destruct x, x'; try congruence. f_equal.
    apply IH; auto. apply sa_env_intro; auto.
  - intros gs IH recsz l b F V V' id mem k v v' He Hs [Hv|[_ Hv]]; [|discriminate].
    cbn [write_ty steady_ty same_assignable_ty] in *. apply andb_true_iff in Hs. destruct Hs as [S1 S2].
    destruct v, v'; try congruence.
    rewrite (forall2_len _ _ _ Hv). rewrite (sa_len F V V') by auto.
    match goal with |- wbind _ (fun _ => wfor l0 ?f) = _ => assert (wfor l0 f = wfor l1 f) as -> end; auto.
    apply wfor_forall2.
    eapply forall2_impl; [|exact Hv]. intros x x' H. destruct x, x'; try congruence. f_equal.
    apply IH; auto. apply sa_env_intro; auto.
  - intros b IH p ids F V V' id mem k v v' He Hs [Hv|[_ Hv]]; [|discriminate].
    cbn [write_ty steady_ty same_assignable_ty] in *. apply andb_true_iff in Hs. destruct Hs as [S1 S2].
    destruct He as (H1 & H2 & H3). rewrite (H1 _ S1). destruct (lookups (mk_env F V') ids); auto.
    destruct v, v'; try congruence. destruct (p l); auto. apply IH; auto. split; auto.
  - intros g al IH F V V' id mem k v v' He Hs [Hv|[_ Hv]]; [|discriminate].
    cbn [write_ty steady_ty same_assignable_ty] in *. apply andb_true_iff in Hs. destruct Hs as [S1 S2].
    destruct v, v'; try congruence. destruct Hv as [-> Hv].
    rewrite (IH F V V' id i0 v v') by auto.
    destruct (is_match_field g) eqn:Eg; [destruct g; try discriminate; auto|].
    rewrite (sa_guide F V V') by auto. destruct g; auto.
  - intros F V V' ws ws' _ _ H. destruct ws, ws'; simpl in H; try discriminate; reflexivity.
  - intros id t IHt k gs IHgs F V V' ws ws' He Hs H.
    destruct ws as [|w ws], ws' as [|w' ws']; cbn [same_assignable_in] in H; try discriminate; try reflexivity.
    destruct H as [H1 H2]. cbn [write_fields steady_in] in *. apply andb_true_iff in Hs. destruct Hs as [S1 S2].
    rewrite (IHgs F V V' ws ws') by auto.
    destruct (overwritten F id t k) eqn:Eo.
    + rewrite (IHt F V V' id true k w w') by auto.
      destruct t; try discriminate. cbn [overwritten] in Eo.
      rewrite is_derived_sources. unfold is_frozen. rewrite frozen_pinned. rewrite Eo. auto.
    + destruct (H1 eq_refl) as [Hv Hk]. rewrite (IHt F V V' id true k w w') by auto.
      assert (wcheck k w = wcheck k w') as ->; auto. destruct Hk; subst; auto.
  - intros F V V' id i v v' _ _ H. auto.
  - intros t IHt k al IHal F V V' id i v v' He Hs H. cbn [write_alts steady_alts same_assignable_alts] in *.
    apply andb_true_iff in Hs. destruct Hs as [S1 S2]. destruct i.
    + destruct H as [H Hk]. rewrite (IHt F V V' id false k v v') by auto.
      assert (wcheck k v = wcheck k v') as ->; auto. destruct Hk; subst; auto.
    + eapply IHal; eauto.
Qed.

Lemma same_assignable_write fs vs vs' : steady fs = true -> same_assignable fs vs vs' ->
  stream_cast c fs vs = stream_cast c fs vs'.
Proof.
  intros Hs H. apply sa_write; auto. apply sa_env_intro; auto.
Qed.

End Same.
