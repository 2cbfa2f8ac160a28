(** * Lemmas about schemas that describe the same messages *)
From Coq Require Import Lia ZifyBool ZifyNat.
From Verif Require Import BytesFacts ProgFacts Write EquivSpec.
Local Open Scope list_scope.

Scheme ren_ty_i := Minimality for ren_ty Sort Prop
with ren_fields_i := Minimality for ren_fields Sort Prop
with ren_alts_i := Minimality for ren_alts Sort Prop.
Combined Scheme ren_ind from ren_ty_i, ren_fields_i, ren_alts_i.

Fixpoint ren_env (r : ident -> ident) (e : env) : env :=
  match e with [] => [] | (i, v) :: e' => (r i, v) :: ren_env r e' end.
Definition on_id (r : ident -> ident) (e : reason * ident) : reason * ident := (fst e, r (snd e)).

Section Ren.
Variable r : ident -> ident.
Hypothesis inj : one_to_one r.

Lemma ren_eqb a b : String.eqb (r a) (r b) = String.eqb a b.
Proof.
  destruct (String.eqb_spec (r a) (r b)) as [e|n]; destruct (String.eqb_spec a b) as [e'|n']; auto.
  - apply inj in e. contradiction.
  - subst. contradiction.
Qed.

Lemma ren_lookup e id : lookup (ren_env r e) (r id) = lookup e id.
Proof. induction e as [|[i v] e IH]; cbn; auto. rewrite ren_eqb, IH. reflexivity. Qed.

Lemma ren_update e id v : update (ren_env r e) (r id) v = ren_env r (update e id v).
Proof.
  induction e as [|[i w] e IH]; cbn; auto. rewrite ren_eqb. destruct (String.eqb i id); cbn; auto.
  rewrite IH. reflexivity.
Qed.

Lemma ren_lookups e ids : lookups (ren_env r e) (map r ids) = lookups e ids.
Proof. induction ids as [|i ids IH]; cbn; auto. rewrite ren_lookup, IH. reflexivity. Qed.

Lemma ren_deduce_len c e l : deduce_len c (ren_env r e) (ren_len r l) = deduce_len c e l.
Proof. destruct l; cbn; [rewrite ren_lookup|rewrite ren_lookups]; reflexivity. Qed.

Lemma ren_deduce_type e g : deduce_type (ren_env r e) (ren_guide r g) = deduce_type e g.
Proof.
  destruct g; cbn; [rewrite ren_lookup|rewrite ren_lookups|]; try reflexivity.
  induction brs as [|[p ids] brs IH]; cbn; auto. rewrite ren_lookups, IH. reflexivity.
Qed.

Lemma ren_ident_is o id : ident_is (option_map r o) (r id) = ident_is o id.
Proof. destruct o; cbn; [apply ren_eqb|reflexivity]. Qed.
End Ren.

Lemma ren_mk_env r fs fs' vs : ren_fields r fs fs' -> mk_env fs' vs = ren_env r (mk_env fs vs).
Proof.
  intros H. revert vs. induction H; intros [|v vs]; cbn; auto. rewrite IHren_fields. reflexivity.
Qed.

Lemma ren_default r :
  (forall t t', ren_ty r t t' -> default_ty t' = default_ty t) /\
  (forall fs fs', ren_fields r fs fs' -> default_fields fs' = default_fields fs) /\
  (forall al al', ren_alts r al al' -> default_alts al' = default_alts al).
Proof. revert r. apply (ren_ind (fun _ t t' => default_ty t' = default_ty t) (fun _ f f' => default_fields f' = default_fields f) (fun _ a a' => default_alts a' = default_alts a)); cbn; intros; congruence. Qed.

Lemma req_trans {E A} (p q s : rprog E A) : req p q -> req q s -> req p s.
Proof.
  intros H. revert s. induction H; intros s' G; inversion G; subst; constructor; auto.
Qed.

Lemma rmaperr_fst_id {A} r (p : rprog (reason * ident) A) :
  req (rmaperr fst (rmaperr (on_id r) p)) (rmaperr fst p).
Proof. induction p; cbn; constructor; auto. Qed.

Lemma rmaperr_id {A} r id (p : rprog reason A) :
  req (rmaperr (fun e => (e, r id)) p) (rmaperr (on_id r) (rmaperr (fun e => (e, id)) p)).
Proof. induction p; cbn; constructor; auto. Qed.

Lemma rmaperr_bind {E E' A B} (g : E -> E') (p : rprog E A) (f : A -> rprog E B) :
  req (rmaperr g (rbind p f)) (rbind (rmaperr g p) (fun a => rmaperr g (f a))).
Proof. induction p; cbn; try constructor; auto. apply req_refl. Qed.

Lemma req_sym {E A} (p q : rprog E A) : req p q -> req q p.
Proof. induction 1; constructor; auto. Qed.

Lemma ren_read c r :
  (forall t t', ren_ty r t t' -> one_to_one r ->
     forall e, req (read_ty c (ren_env r e) t') (read_ty c e t)) /\
  (forall fs fs', ren_fields r fs fs' -> one_to_one r ->
     forall e, req (read_fields c (ren_env r e) fs') (rmaperr (on_id r) (read_fields c e fs))) /\
  (forall al al', ren_alts r al al' -> one_to_one r ->
     forall e i, req (read_alts c (ren_env r e) al' i) (read_alts c e al i)).
Proof.
  assert (N : forall q fs fs', one_to_one q -> ren_fields q fs fs' ->
    (one_to_one q -> forall e, req (read_fields c (ren_env q e) fs') (rmaperr (on_id q) (read_fields c e fs))) ->
    req (rmaperr fst (read_fields c (mk_env fs' (default_fields fs')) fs'))
        (rmaperr fst (read_fields c (mk_env fs (default_fields fs)) fs))).
  { intros q fs fs' I R H. rewrite (ren_mk_env _ _ _ _ R).
    destruct (ren_default q) as (_ & D & _). rewrite (D _ _ R).
    eapply req_trans; [apply req_maperr, H; exact I|]. apply rmaperr_fst_id. }
  revert r. apply (ren_ind
    (fun r t t' => one_to_one r -> forall e, req (read_ty c (ren_env r e) t') (read_ty c e t))
    (fun r fs fs' => one_to_one r -> forall e,
       req (read_fields c (ren_env r e) fs') (rmaperr (on_id r) (read_fields c e fs)))
    (fun r al al' => one_to_one r -> forall e i,
       req (read_alts c (ren_env r e) al' i) (read_alts c e al i)));
    cbn [read_ty read_fields read_alts]; intros.
  - apply req_refl.
  - rewrite ren_deduce_len by assumption. apply req_refl.
  - apply req_bind; [match goal with R : ren_fields ?q _ _ |- _ => solve [apply (N q); assumption] end|]. intros; apply req_refl.
  - apply req_bind; [|intros; apply req_refl]. apply req_rrep.
    apply req_bind; [match goal with R : ren_fields ?q _ _ |- _ => solve [apply (N q); assumption] end|intros; apply req_refl].
  - rewrite ren_deduce_len by assumption. destruct (deduce_len c e _) as [len|]; [|constructor].
    destruct (len_allowed _ _ _); [|constructor]. constructor.
    apply req_bind; [|intros; apply req_refl]. apply req_rrep.
    apply req_bind; [match goal with R : ren_fields ?q _ _ |- _ => solve [apply (N q); assumption] end|intros; apply req_refl].
  - rewrite ren_lookups by assumption. destruct (lookups e ids); [|constructor].
    destruct (p l); [|constructor]. apply req_bind; [auto|intros; apply req_refl].
  - rewrite ren_deduce_type by assumption. destruct (deduce_type e g) as [[i|]|]; try constructor.
    apply req_bind; [auto|intros; apply req_refl].
  - constructor.
  - eapply req_trans; [|apply req_sym, rmaperr_bind].
    apply req_bind.
    { eapply req_trans; [|apply rmaperr_id]. apply req_maperr, req_bind; auto. intros; apply req_refl. }
    intros v. eapply req_trans; [|apply req_sym, rmaperr_bind]. rewrite ren_update by assumption.
    apply req_bind; auto. intros; apply req_refl.
  - constructor.
  - destruct i; auto. apply req_bind; auto. intros; apply req_refl.
Qed.

(** ** Writing *)
Lemma wfor_ext {E A} (l : list A) (f g : A -> wprog E unit) : (forall a, f a = g a) -> wfor l f = wfor l g.
Proof. intros H. induction l; cbn; auto. rewrite H, IHl. reflexivity. Qed.

Lemma wbind_ext {E A B} (p : wprog E A) (f g : A -> wprog E B) : (forall a, f a = g a) -> wbind p f = wbind p g.
Proof. intros H. induction p; cbn; rewrite ?IHp; auto. Qed.

Lemma wbind_ext2 {E A B} (p q : wprog E A) (f g : A -> wprog E B) : p = q -> (forall a, f a = g a) ->
  wbind p f = wbind q g.
Proof. intros -> H. apply wbind_ext. exact H. Qed.

Lemma wmaperr_fst_id {A} r (p : wprog (reason * ident) A) :
  wmaperr fst (wmaperr (on_id r) p) = wmaperr fst p.
Proof. induction p; cbn; rewrite ?IHp; reflexivity. Qed.

Lemma wmaperr_id {A} r id (p : wprog reason A) :
  wmaperr (on_id r) (wmaperr (fun e => (e, id)) p) = wmaperr (fun e => (e, r id)) p.
Proof. induction p; cbn; rewrite ?IHp; reflexivity. Qed.

Lemma wmaperr_bind' {E E' A B} (g : E -> E') (p : wprog E A) (f : A -> wprog E B) :
  wmaperr g (wbind p f) = wbind (wmaperr g p) (fun a => wmaperr g (f a)).
Proof. induction p; cbn; rewrite ?IHp; reflexivity. Qed.

Lemma ren_len_target r t t' : ren_ty r t t' -> len_target t' = option_map r (len_target t).
Proof. intros H. destruct H; cbn; auto; destruct l; reflexivity. Qed.

Lemma ren_disc_target r t t' : ren_ty r t t' -> disc_target t' = option_map r (disc_target t).
Proof. intros H. destruct H; cbn; auto; destruct g; reflexivity. Qed.

Lemma ren_cond_target r t t' : ren_ty r t t' -> cond_target t' = option_map r (cond_target t).
Proof. intros H. destruct H; cbn; auto. eapply ren_len_target; eauto. Qed.

Lemma ren_frozen r t t' k : ren_ty r t t' -> is_frozen t' k = is_frozen t k.
Proof. intros H. destruct H; reflexivity. Qed.

Lemma ren_is_length_derived r fs fs' id : ren_fields r fs fs' -> one_to_one r ->
  is_length_derived fs' (r id) = is_length_derived fs id.
Proof.
  intros R. induction R; intros I; cbn; auto. erewrite ren_len_target by eassumption.
  rewrite ren_ident_is, IHR by assumption. reflexivity.
Qed.

Lemma ren_is_disc_derived r fs fs' id : ren_fields r fs fs' -> one_to_one r ->
  is_disc_derived fs' (r id) = is_disc_derived fs id.
Proof.
  intros R. induction R; intros I; cbn; auto. erewrite ren_disc_target by eassumption.
  rewrite ren_ident_is, IHR by assumption. reflexivity.
Qed.

Lemma ren_is_derived r fs fs' id : ren_fields r fs fs' -> one_to_one r ->
  is_derived fs' (r id) = is_derived fs id.
Proof.
  intros R I. unfold is_derived.
  rewrite (ren_is_length_derived _ _ _ _ R I), (ren_is_disc_derived _ _ _ _ R I). reflexivity.
Qed.

Lemma ren_implied c r t t' v id : ren_ty r t t' -> one_to_one r -> implied c (r id) t' v = implied c id t v.
Proof.
  intros H I. unfold implied. rewrite (ren_len_target _ _ _ H), (ren_disc_target _ _ _ H).
  rewrite !ren_ident_is by assumption. destruct (ident_is (len_target t) id); auto.
  destruct (ident_is (disc_target t) id); auto. destruct H; auto. destruct g; auto.
Qed.

Lemma ren_derive_fold c r fs fs' id : ren_fields r fs fs' -> one_to_one r ->
  forall vs d, derive_fold c (r id) fs' vs d = derive_fold c id fs vs d.
Proof.
  intros R. induction R; intros I [|v ws] d; cbn; auto.
  rewrite (ren_implied _ _ _ _ _ _ H) by assumption. destruct (implied c id t v) as [[z|]|]; auto.
Qed.

Lemma ren_derive_value c r fs fs' vs id t n : ren_fields r fs fs' -> one_to_one r ->
  derive_value c fs' vs (r id) t n = derive_value c fs vs id t n.
Proof.
  intros R I. unfold derive_value. destruct t; auto. rewrite (ren_derive_fold _ _ _ _ _ R I). reflexivity.
Qed.

Lemma ren_alts_target r al al' id : ren_alts r al al' -> one_to_one r ->
  alts_target al' (r id) = alts_target al id.
Proof.
  intros R. induction R; intros I; cbn; auto. rewrite IHR by assumption.
  erewrite ren_len_target by eassumption. rewrite ren_ident_is by assumption. reflexivity.
Qed.

Lemma ren_a_nth r al al' i : ren_alts r al al' ->
  match a_nth i al, a_nth i al' with
  | Some (t, k), Some (t', k') => k = k' /\ ren_ty r t t'
  | None, None => True
  | _, _ => False
  end.
Proof.
  intros H. revert i. induction H; intros [|i]; cbn; auto. apply IHren_alts.
Qed.

Lemma ren_has_cond_of r t t' id : ren_ty r t t' -> one_to_one r ->
  has_cond_obligation_of t' (r id) = has_cond_obligation_of t id.
Proof.
  intros H I. unfold has_cond_obligation_of. rewrite (ren_cond_target _ _ _ H), ren_ident_is by assumption.
  f_equal. destruct H; auto. apply ren_alts_target; assumption.
Qed.

Lemma ren_has_cond r fs fs' id : ren_fields r fs fs' -> one_to_one r ->
  has_cond_obligation fs' (r id) = has_cond_obligation fs id.
Proof.
  intros R. induction R; intros I; cbn; auto.
  rewrite (ren_has_cond_of _ _ _ _ H), IHR by assumption. reflexivity.
Qed.

Lemma ren_cond_agrees r e t t' v w id : ren_ty r t t' -> one_to_one r ->
  cond_agrees (ren_env r e) (r id) w t' v = cond_agrees e id w t v.
Proof.
  intros H I. unfold cond_agrees. rewrite (ren_cond_target _ _ _ H), ren_ident_is by assumption.
  destruct (ident_is (cond_target t) id) eqn:D.
  - destruct H; try discriminate D. destruct v; auto. rewrite ren_lookups by assumption. reflexivity.
  - destruct H; auto. destruct v; auto. pose proof (ren_a_nth _ _ _ i H) as N.
    destruct (a_nth i al) as [[t k]|], (a_nth i al') as [[t' k']|]; try contradiction; auto.
    destruct N as [_ N]. rewrite (ren_len_target _ _ _ N), ren_ident_is by assumption. reflexivity.
Qed.

Lemma ren_verify_cond r e id w gs gs' : ren_fields r gs gs' -> one_to_one r -> forall ws,
  verify_cond (ren_env r e) (r id) w gs' ws = verify_cond e id w gs ws.
Proof.
  intros R. induction R; intros I [|v ws]; cbn; auto.
  rewrite (ren_cond_agrees _ _ _ _ _ _ _ H), IHR by assumption. reflexivity.
Qed.

Lemma ren_verify_then_write c r fs fs' vs id t n v : ren_fields r fs fs' -> one_to_one r ->
  verify_then_write c fs' vs (r id) t n v = verify_then_write c fs vs id t n v.
Proof.
  intros R I. unfold verify_then_write. rewrite (ren_has_cond _ _ _ _ R I).
  destruct (has_cond_obligation fs id); auto.
  destruct v; auto. rewrite (ren_mk_env _ _ _ _ R), (ren_verify_cond _ _ _ _ _ _ R I). reflexivity.
Qed.

Lemma ren_write_fixed c r fs fs' vs id mem k t n v : ren_fields r fs fs' -> one_to_one r ->
  write_fixed c fs' vs (r id) mem k t n v = write_fixed c fs vs id mem k t n v.
Proof.
  intros R I. unfold write_fixed. rewrite (ren_is_derived _ _ _ _ R I), (ren_derive_value _ _ _ _ _ _ _ _ R I).
  pose proof (fun v => ren_verify_then_write c r fs fs' vs id t n v R I) as V. destruct (is_derived fs id).
  - destruct (derive_value c fs vs id t n); auto. rewrite V. reflexivity.
  - rewrite V. destruct (mem && is_frozen (FFixed t n) k); auto.
    destruct (frozen_value (FFixed t n) k); auto.
Qed.

Lemma ren_verify_len c r fs fs' vs l n : ren_fields r fs fs' -> one_to_one r ->
  verify_len c (mk_env fs' vs) (ren_len r l) n = verify_len c (mk_env fs vs) l n.
Proof.
  intros R I. rewrite (ren_mk_env _ _ _ _ R). unfold verify_len. rewrite ren_deduce_len by assumption.
  destruct l; reflexivity.
Qed.

Lemma ren_write c r :
  (forall t t', ren_ty r t t' -> one_to_one r -> forall fs fs', ren_fields r fs fs' ->
     forall vs id mem k v, write_ty c fs' vs (r id) mem k t' v = write_ty c fs vs id mem k t v) /\
  (forall gs gs', ren_fields r gs gs' -> one_to_one r -> forall fs fs', ren_fields r fs fs' ->
     forall vs ws, write_fields c fs' vs gs' ws = wmaperr (on_id r) (write_fields c fs vs gs ws)) /\
  (forall al al', ren_alts r al al' -> one_to_one r -> forall fs fs', ren_fields r fs fs' ->
     forall vs id i v, write_alts c fs' vs (r id) al' i v = write_alts c fs vs id al i v).
Proof.
  revert r. apply (ren_ind
    (fun r t t' => one_to_one r -> forall fs fs', ren_fields r fs fs' ->
       forall vs id mem k v, write_ty c fs' vs (r id) mem k t' v = write_ty c fs vs id mem k t v)
    (fun r gs gs' => one_to_one r -> forall fs fs', ren_fields r fs fs' ->
       forall vs ws, write_fields c fs' vs gs' ws = wmaperr (on_id r) (write_fields c fs vs gs ws))
    (fun r al al' => one_to_one r -> forall fs fs', ren_fields r fs fs' ->
       forall vs id i v, write_alts c fs' vs (r id) al' i v = write_alts c fs vs id al i v));
    cbn [write_ty write_fields write_alts]; intros.
  - apply ren_write_fixed; assumption.
  - destruct v; auto. rewrite (ren_verify_len c _ _ _ vs l _ H0 H). reflexivity.
  - destruct v; auto. rewrite (H1 H fs fs' H0), wmaperr_fst_id. reflexivity.
  - destruct v; auto. destruct (Nat.eqb _ _); auto. apply wfor_ext. intros []; auto.
    rewrite (H1 H fs fs' H0), wmaperr_fst_id. reflexivity.
  - destruct v; auto. rewrite (ren_verify_len c _ _ _ vs l _ H3 H2). apply wbind_ext. intros _.
    apply wfor_ext. intros []; auto. rewrite (H1 H fs fs' H0), wmaperr_fst_id. reflexivity.
  - rewrite (ren_mk_env _ _ _ _ H2), ren_lookups by assumption.
    destruct (lookups _ ids); auto. destruct (p l), v; auto.
  - destruct v; auto. rewrite (ren_mk_env _ _ _ _ H2), ren_deduce_type by assumption.
    destruct g; cbn [ren_guide]; auto; destruct (deduce_type _ _) as [[j|]|]; auto; destruct (Nat.eqb j i); auto.
  - destruct ws; reflexivity.
  - destruct ws as [|w ws]; auto. rewrite (wmaperr_bind' (on_id _)), wmaperr_id. apply wbind_ext2; [|intros; apply H2; assumption].
    rewrite (ren_is_derived _ _ _ id H4 H3), (ren_frozen _ _ _ k H).
    f_equal. apply wbind_ext. intros _. apply H0; assumption.
  - reflexivity.
  - destruct i; auto. rewrite (H0 H3 _ _ H4). reflexivity.
Qed.

Lemma rename_read c r fs fs' S alloc s : one_to_one r -> ren_fields r fs fs' ->
  rrun S alloc (struct_cast c fs') s =
  let '(o, s', ev) := rrun S alloc (struct_cast c fs) s in (ren_outcome r o, s', ev).
Proof.
  intros I R. unfold struct_cast. destruct (ren_default r) as (_ & D & _).
  rewrite (ren_mk_env _ _ _ _ R), (D _ _ R).
  rewrite (req_rrun _ _ _ _ (proj1 (proj2 (ren_read c r)) _ _ R I _)).
  rewrite rrun_maperr. destruct (rrun S alloc _ s) as [[[a|[e id]| | |] s'] ev]; reflexivity.
Qed.

Lemma wrun_maperr' {E E' A} (g : E -> E') (S : ostream) (p : wprog E A) : forall s,
  wrun S (wmaperr g p) s =
  let '(o, s', ch) := wrun S p s in
  (match o with Ok a => Ok a | Err e => Err (g e) | UB => UB | Stuck => Stuck | Throw => Throw end, s', ch).
Proof.
  induction p; intros s; cbn; auto. destruct (o_write S s bs) as [[|] s1]; auto.
  rewrite IHp. destruct (wrun S p s1) as [[o s2] ch]. reflexivity.
Qed.

Lemma rename_write c r fs fs' vs S s : one_to_one r -> ren_fields r fs fs' ->
  wrun S (stream_cast c fs' vs) s =
  let '(o, s', ch) := wrun S (stream_cast c fs vs) s in (ren_outcome r o, s', ch).
Proof.
  intros I R. unfold stream_cast.
  rewrite (proj1 (proj2 (ren_write c r)) _ _ R I _ _ R), wrun_maperr'.
  destruct (wrun S _ s) as [[[a|[e id]| | |] s'] ch]; reflexivity.
Qed.
