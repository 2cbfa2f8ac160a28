(** * Lemmas about builds *)
From Coq Require Import Lia ZifyBool ZifyNat.
From Verif Require Import BytesFacts ProgFacts Write EquivSpec EquivFacts.
Local Open Scope list_scope.

(** ** Programs that agree where the first does not fail *)
Inductive rle {E A} : rprog E A -> rprog E A -> Prop :=
| rle_err e p : rle (RErr e) p
| rle_ret a : rle (RRet a) (RRet a)
| rle_ub : rle RUB RUB
| rle_stuck : rle RStuck RStuck
| rle_read n e k k' : (forall bs, rle (k bs) (k' bs)) -> rle (RRead n e k) (RRead n e k')
| rle_alloc n n' k k' : rle k k' -> rle (RAlloc n k) (RAlloc n' k').

Lemma rle_refl {E A} (p : rprog E A) : rle p p.
Proof. induction p; constructor; auto. Qed.

Lemma rle_bind {E A B} (p p' : rprog E A) (f f' : A -> rprog E B) :
  rle p p' -> (forall a, rle (f a) (f' a)) -> rle (rbind p f) (rbind p' f').
Proof. intros H Hf. induction H; simpl; try constructor; auto. Qed.

Lemma rle_maperr {E E' A} (g : E -> E') (p p' : rprog E A) : rle p p' -> rle (rmaperr g p) (rmaperr g p').
Proof. induction 1; simpl; constructor; auto. Qed.

Lemma rle_rrep {E A} n (p p' : rprog E A) : rle p p' -> rle (rrep n p) (rrep n p').
Proof.
  intros H. induction n; simpl; [constructor|].
  apply rle_bind; auto. intros a. apply rle_bind; auto. intros; constructor.
Qed.

Lemma rle_rmem {E A} (p p' : rprog E A) : rle p p' -> forall bs o rest,
  rmem p bs = (o, rest) -> (forall e, o <> Err e) -> rmem p' bs = (o, rest).
Proof.
  induction 1; intros bs o rest R N; simpl in *; auto.
  - injection R as <- <-. destruct (N e eq_refl).
  - destruct (n <=? Z.of_nat (length bs)); auto.
Qed.

(** ** Reading *)
Scheme po_ty_i := Minimality for ported_ty Sort Prop
with po_fields_i := Minimality for ported_fields Sort Prop
with po_alts_i := Minimality for ported_alts Sort Prop.
Combined Scheme po_ind from po_ty_i, po_fields_i, po_alts_i.

Lemma pow256_add a b : pow256 (a + b) = pow256 a * pow256 b.
Proof. induction a; cbn [Nat.add]; rewrite ?pow256_0, ?pow256_S; lia. Qed.

Lemma pow256_mono a b : (a <= b)%nat -> pow256 a <= pow256 b.
Proof.
  intros H. replace b with (a + (b - a))%nat by lia. rewrite pow256_add.
  pose proof (pow256_pos a). pose proof (pow256_pos (b - a)). nia.
Qed.

Lemma mod_mod_pow w w' z : (w' <= w)%nat -> (z mod pow256 w) mod pow256 w' = z mod pow256 w'.
Proof.
  intros H. replace w with (w' + (w - w'))%nat by lia. rewrite pow256_add.
  pose proof (pow256_pos w'). pose proof (pow256_pos (w - w')).
  rewrite Z.rem_mul_r by lia. rewrite Z.mul_comm, Z.mod_add by lia. apply Z.mod_mod. lia.
Qed.

Section Port.
Variables c c' : cfg.
Hypothesis N : narrower c c'.
Hypothesis D : below (c_szw c') (c_dmax c).

Lemma na_host : is_host_order c' = is_host_order c.
Proof. destruct N as (H & W & _). unfold is_host_order. rewrite H, W. reflexivity. Qed.

Lemma na_load t : forall mem, load c' t mem = load c t mem.
Proof.
  assert (L : forall w mem, load_bits c' w mem = load_bits c w mem).
  { intros w mem. unfold load_bits. rewrite na_host. destruct N as (-> & _). reflexivity. }
  induction t; intros mem; cbn; rewrite ?L; auto.
  replace (map (load c' t) (chunks (csize t) n mem)) with (map (load c t) (chunks (csize t) n mem)); auto.
  apply map_ext. auto.
Qed.

Lemma to_size_below z : below (c_szw c') z -> to_size c z = z /\ to_size c' z = z.
Proof.
  unfold below, to_size. intros B. destruct N as (_ & _ & _ & _ & W).
  pose proof (pow256_mono _ _ W). split; apply Z.mod_small; lia.
Qed.

Lemma to_size_narrow z : below (c_szw c') (to_size c z) -> to_size c' z = to_size c z.
Proof.
  unfold below, to_size. intros B. destruct N as (_ & _ & _ & _ & W).
  rewrite <- (mod_mod_pow _ _ z W). apply Z.mod_small. exact B.
Qed.

Lemma na_ceiling b : bound_below (c_szw c') b ->
  ceiling c' b = ceiling c b /\ below (c_szw c') (ceiling c b).
Proof.
  intros B. unfold ceiling. destruct N as (_ & _ & _ & -> & _). set (z := match b with Some n => n | None => c_dmax c end).
  assert (Q : below (c_szw c') z) by (destruct b; [apply B; reflexivity|exact D]).
  destruct (to_size_below z Q) as [-> ->]. auto.
Qed.

Lemma allowed_le ceil esz len : below (c_szw c') ceil -> 0 <= len -> len_allowed ceil esz len = true ->
  below (c_szw c') len /\ below (c_szw c') (len * Z.max esz 0).
Proof.
  unfold len_allowed, below. intros C L H.
  assert (Q : len <= ceil / esz) by lia. destruct (Z_lt_le_dec 0 esz) as [P|P].
  - rewrite Z.max_l by lia. assert (len * esz <= ceil).
    { etransitivity; [apply Z.mul_le_mono_nonneg_r; [lia|exact Q]|]. rewrite Z.mul_comm. apply Z.mul_div_le. exact P. }
    nia.
  - assert (ceil / esz <= 0).
    { destruct (Z.eq_dec esz 0) as [->|]; [rewrite Zdiv_0_r; lia|].
      assert (esz < 0) by lia. rewrite <- Z.div_opp_opp by lia.
      apply Z.div_le_upper_bound; lia. }
    rewrite Z.max_r by lia. nia.
Qed.

Lemma deduce_len_nonneg e l len : deduce_len c e l = Some len -> 0 <= len.
Proof.
  pose proof (pow256_pos (c_szw c)). destruct l; cbn.
  - destruct (lookup e id) as [[]|]; intros [= <-]. unfold to_size. apply Z.mod_pos_bound. lia.
  - destruct (lookups e ids); intros [= <-]. unfold to_size. apply Z.mod_pos_bound. lia.
Qed.

Lemma na_deduce_len e l len : deduce_len c e l = Some len -> below (c_szw c') len -> deduce_len c' e l = Some len.
Proof.
  destruct l; cbn.
  - destruct (lookup e id) as [[]|]; intros [= <-] B. rewrite to_size_narrow; auto.
  - destruct (lookups e ids); intros [= <-] B. rewrite to_size_narrow; auto.
Qed.

Lemma na_deduce_len_none e l : deduce_len c e l = None -> deduce_len c' e l = None.
Proof.
  destruct l; cbn.
  - destruct (lookup e id) as [[]|]; auto; discriminate.
  - destruct (lookups e ids); auto; discriminate.
Qed.

Lemma na_read_var elt len b : bound_below (c_szw c') b -> 0 <= len ->
  (len_allowed (ceiling c b) (Z.of_nat (csize elt)) len = true -> below (c_szw c') len) /\
  rle (read_var c elt len b) (read_var c' elt len b).
Proof.
  intros B L. destruct (na_ceiling b B) as [E C]. unfold read_var. rewrite E.
  destruct (len_allowed _ _ _) eqn:A; [|split; [discriminate|constructor]].
  destruct (allowed_le _ _ _ C L A) as [B1 B2]. split; [auto|]. constructor.
  apply rle_bind.
  - unfold read_raw. destruct N as (_ & _ & -> & _). destruct (c_cx c); [apply rle_refl|].
    rewrite Z.max_l in B2 by lia. destruct (to_size_below _ B2) as [-> ->]. apply rle_refl.
  - intros mem. rewrite (map_ext _ _ (na_load elt)). apply rle_refl.
Qed.

Lemma na_read :
  (forall t t', ported_ty (c_szw c') t t' -> forall e, rle (read_ty c e t) (read_ty c' e t')) /\
  (forall fs fs', ported_fields (c_szw c') fs fs' -> forall e, rle (read_fields c e fs) (read_fields c' e fs')) /\
  (forall al al', ported_alts (c_szw c') al al' -> forall e i, rle (read_alts c e al i) (read_alts c' e al' i)).
Proof.
  assert (DF : (forall t t', ported_ty (c_szw c') t t' -> default_ty t' = default_ty t) /\
    (forall fs fs', ported_fields (c_szw c') fs fs' -> default_fields fs' = default_fields fs) /\
    (forall al al', ported_alts (c_szw c') al al' -> default_alts al' = default_alts al)).
  { apply po_ind; cbn; intros; congruence. }
  assert (ME : forall fs fs', ported_fields (c_szw c') fs fs' -> forall vs, mk_env fs' vs = mk_env fs vs).
  { induction 1; intros [|v vs]; cbn; auto. rewrite IHported_fields. reflexivity. }
  assert (RN : forall fs fs', ported_fields (c_szw c') fs fs' ->
    (forall e, rle (read_fields c e fs) (read_fields c' e fs')) ->
    rle (rbind (rmaperr fst (read_fields c (mk_env fs (default_fields fs)) fs)) (fun vs => RRet (VRec vs)))
        (rbind (rmaperr fst (read_fields c' (mk_env fs' (default_fields fs')) fs')) (fun vs => RRet (VRec vs)))).
  { intros fs fs' R H. rewrite (ME _ _ R), (proj1 (proj2 DF) _ _ R).
    apply rle_bind; [apply rle_maperr, H|intros; constructor]. }
  apply (po_ind (c_szw c')
    (fun t t' => forall e, rle (read_ty c e t) (read_ty c' e t'))
    (fun fs fs' => forall e, rle (read_fields c e fs) (read_fields c' e fs'))
    (fun al al' => forall e i, rle (read_alts c e al i) (read_alts c' e al' i)));
    cbn [read_ty read_fields read_alts].
  - intros t n e. unfold read_fixed. destruct (Nat.ltb _ _); constructor. intros bs.
    rewrite na_load. apply rle_refl.
  - intros elt l b B e. destruct (deduce_len c e l) as [len|] eqn:L.
    + pose proof (deduce_len_nonneg _ _ _ L) as P. destruct (na_read_var elt len b B P) as [A R].
      unfold read_var in *. destruct (len_allowed _ _ _) eqn:LA; [|constructor].
      rewrite (na_deduce_len _ _ _ L (A eq_refl)). exact R.
    + rewrite (na_deduce_len_none _ _ L). constructor.
  - intros fs fs' R H e. apply RN; auto.
  - intros n fs fs' R H e. apply rle_bind; [|intros; constructor]. apply rle_rrep. apply RN; auto.
  - intros fs fs' sz sz' l b R H Z B e. destruct (deduce_len c e l) as [len|] eqn:L.
    + pose proof (deduce_len_nonneg _ _ _ L) as P. destruct (na_ceiling b B) as [E C].
      destruct (len_allowed (ceiling c b) sz len) eqn:A; [|constructor].
      destruct (allowed_le _ _ _ C P A) as [B1 B2]. rewrite (na_deduce_len _ _ _ L B1), E.
      assert (A' : len_allowed (ceiling c b) sz' len = true).
      { unfold len_allowed in *. unfold below in C. pose proof (Z.div_le_compat_l (ceiling c b) sz' sz ltac:(lia) ltac:(lia)). lia. }
      rewrite A'. constructor. apply rle_bind; [|intros; constructor]. apply rle_rrep. apply RN; auto.
    + rewrite (na_deduce_len_none _ _ L). constructor.
  - intros b b' p ids R H e. destruct (lookups e ids); [|constructor]. destruct (p l); [|constructor].
    apply rle_bind; [auto|intros; constructor].
  - intros g al al' R H e. destruct (deduce_type e g) as [[i|]|]; try constructor.
    apply rle_bind; [auto|intros; constructor].
  - constructor.
  - intros id t t' k fs fs' R H R' H' e. apply rle_bind.
    + apply rle_maperr, rle_bind; auto. intros; apply rle_refl.
    + intros v. apply rle_bind; [auto|intros; constructor].
  - constructor.
  - intros t t' k al al' R H R' H' e [|i]; auto. apply rle_bind; auto. intros; apply rle_refl.
Qed.

Lemma narrow_read fs fs' bs o rest : ported_fields (c_szw c') fs fs' ->
  rmem (struct_cast c fs) bs = (o, rest) -> (forall e, o <> Err e) ->
  rmem (struct_cast c' fs') bs = (o, rest).
Proof.
  intros R. unfold struct_cast.
  assert (DF : default_fields fs' = default_fields fs).
  { assert (X : (forall t t', ported_ty (c_szw c') t t' -> default_ty t' = default_ty t) /\
      (forall fs fs', ported_fields (c_szw c') fs fs' -> default_fields fs' = default_fields fs) /\
      (forall al al', ported_alts (c_szw c') al al' -> default_alts al' = default_alts al))
      by (apply po_ind; cbn; intros; congruence).
    apply X. exact R. }
  assert (ME : forall vs, mk_env fs' vs = mk_env fs vs).
  { clear DF. induction R; intros [|v vs]; cbn; auto. rewrite IHR. reflexivity. }
  rewrite DF, ME. apply rle_rmem. apply na_read. exact R.
Qed.
End Port.

(** ** Writing: ceilings and sizes of records play no part *)
Scheme rc_ty_i := Minimality for recapped_ty Sort Prop
with rc_fields_i := Minimality for recapped_fields Sort Prop
with rc_alts_i := Minimality for recapped_alts Sort Prop.
Combined Scheme rc_ind from rc_ty_i, rc_fields_i, rc_alts_i.

Lemma rc_mk_env fs fs' : recapped_fields fs fs' -> forall vs, mk_env fs' vs = mk_env fs vs.
Proof. induction 1; intros [|v vs]; cbn; auto. rewrite IHrecapped_fields. reflexivity. Qed.

Lemma rc_len_target t t' : recapped_ty t t' -> len_target t' = len_target t.
Proof. intros H. destruct H; reflexivity. Qed.
Lemma rc_disc_target t t' : recapped_ty t t' -> disc_target t' = disc_target t.
Proof. intros H. destruct H; reflexivity. Qed.
Lemma rc_cond_target t t' : recapped_ty t t' -> cond_target t' = cond_target t.
Proof. intros H. destruct H; cbn; auto. apply rc_len_target. assumption. Qed.
Lemma rc_frozen t t' k : recapped_ty t t' -> is_frozen t' k = is_frozen t k.
Proof. intros H. destruct H; reflexivity. Qed.

Lemma rc_derived fs fs' : recapped_fields fs fs' -> forall id, is_derived fs' id = is_derived fs id.
Proof.
  intros R id. unfold is_derived. f_equal.
  - induction R; cbn; auto. rewrite (rc_len_target _ _ H), IHR. reflexivity.
  - induction R; cbn; auto. rewrite (rc_disc_target _ _ H), IHR. reflexivity.
Qed.

Lemma rc_implied c id t t' v : recapped_ty t t' -> implied c id t' v = implied c id t v.
Proof.
  intros H. unfold implied. rewrite (rc_len_target _ _ H), (rc_disc_target _ _ H).
  destruct H; reflexivity.
Qed.

Lemma rc_derive_value c fs fs' : recapped_fields fs fs' -> forall vs id t n,
  derive_value c fs' vs id t n = derive_value c fs vs id t n.
Proof.
  intros R vs id t n. unfold derive_value. destruct t; auto.
  replace (derive_fold c id fs' vs (mkD 0 false true)) with (derive_fold c id fs vs (mkD 0 false true)); auto.
  generalize (mkD 0 false true). revert vs. induction R; intros [|v vs] d; cbn; auto.
  rewrite (rc_implied _ _ _ _ _ H). destruct (implied c id t v) as [[z|]|]; auto.
Qed.

Lemma rc_a_nth al al' i : recapped_alts al al' ->
  match a_nth i al, a_nth i al' with
  | Some (t, k), Some (t', k') => k = k' /\ recapped_ty t t'
  | None, None => True
  | _, _ => False
  end.
Proof. intros H. revert i. induction H; intros [|i]; cbn; auto. apply IHrecapped_alts. Qed.

Lemma rc_has_cond fs fs' id : recapped_fields fs fs' -> has_cond_obligation fs' id = has_cond_obligation fs id.
Proof.
  assert (AT : forall al al', recapped_alts al al' -> alts_target al' id = alts_target al id).
  { induction 1; cbn; auto. rewrite (rc_len_target _ _ H), IHrecapped_alts. reflexivity. }
  intros R. induction R; cbn; auto. rewrite IHR. f_equal. unfold has_cond_obligation_of.
  rewrite (rc_cond_target _ _ H). f_equal. destruct H; auto.
Qed.

Lemma rc_verify_cond e id w gs gs' : recapped_fields gs gs' -> forall ws,
  verify_cond e id w gs' ws = verify_cond e id w gs ws.
Proof.
  assert (A : forall t t' v, recapped_ty t t' -> cond_agrees e id w t' v = cond_agrees e id w t v).
  { intros t t' v H. unfold cond_agrees. rewrite (rc_cond_target _ _ H).
    destruct H; auto. cbn [cond_target ident_is]. destruct v; auto. pose proof (rc_a_nth _ _ i H) as N.
    destruct (a_nth i al) as [[t k]|], (a_nth i al') as [[t' k']|]; try contradiction; auto.
    destruct N as [_ N]. rewrite (rc_len_target _ _ N). reflexivity. }
  induction 1; intros [|v ws]; cbn; auto. rewrite (A _ _ _ H), IHrecapped_fields. reflexivity.
Qed.

Section Cap.
Variables c c' : cfg.
Hypothesis SC : same_but_cap c c'.

Lemma cap_cfg : c' = mkCfg (c_host c) (c_wire c) (c_cx c) (c_szw c) (c_dmax c').
Proof. destruct SC as (H1 & H2 & H3 & H4). destruct c'; cbn in *; subst; reflexivity. Qed.

Lemma cap_write_const t n v : write_const c' t n v = write_const c t n v.
Proof. rewrite cap_cfg. reflexivity. Qed.
Lemma cap_write_var t l : write_var c' t l = write_var c t l.
Proof. rewrite cap_cfg. reflexivity. Qed.
Lemma cap_to_size z : to_size c' z = to_size c z.
Proof. rewrite cap_cfg. reflexivity. Qed.
Lemma cap_deduce_len e l : deduce_len c' e l = deduce_len c e l.
Proof. rewrite cap_cfg. reflexivity. Qed.
Lemma cap_derive_value fs vs id t n : derive_value c' fs vs id t n = derive_value c fs vs id t n.
Proof.
  unfold derive_value, fits_declared_width. destruct t; auto.
  assert (I : forall t v, implied c' id t v = implied c id t v) by (rewrite cap_cfg; reflexivity).
  replace (derive_fold c' id fs vs (mkD 0 false true)) with (derive_fold c id fs vs (mkD 0 false true)).
  - destruct SC as (_ & _ & _ & ->). destruct (derive_fold _ _ _ _ _); auto. rewrite cap_to_size. reflexivity.
  - generalize (mkD 0 false true). revert vs. induction fs; intros [|v vs] d; cbn; auto.
    rewrite I. destruct (implied c id t v) as [[z|]|]; auto.
Qed.

Lemma cap_verify_then_write fs fs' vs id t n v : recapped_fields fs fs' ->
  verify_then_write c' fs' vs id t n v = verify_then_write c fs vs id t n v.
Proof.
  intros R. unfold verify_then_write. rewrite (rc_has_cond _ _ _ R), cap_write_const.
  destruct (has_cond_obligation fs id); auto. destruct v; auto.
  rewrite (rc_mk_env _ _ R), (rc_verify_cond _ _ _ _ _ R), cap_to_size. reflexivity.
Qed.

Lemma cap_write_fixed fs fs' vs id mem k t n v : recapped_fields fs fs' ->
  write_fixed c' fs' vs id mem k t n v = write_fixed c fs vs id mem k t n v.
Proof.
  intros R. unfold write_fixed. rewrite (rc_derived _ _ R), cap_derive_value, (rc_derive_value _ _ _ R).
  rewrite (cap_verify_then_write _ _ _ _ _ _ _ R). destruct (is_derived fs id).
  - destruct (derive_value _ _ _ _ _ _); auto. rewrite (cap_verify_then_write _ _ _ _ _ _ _ R). reflexivity.
  - destruct (mem && _); auto. destruct (frozen_value _ _); auto. apply cap_verify_then_write, R.
Qed.

Lemma cap_verify_len e l n : verify_len c' e l n = verify_len c e l n.
Proof. unfold verify_len. rewrite cap_deduce_len. reflexivity. Qed.

Lemma cap_write :
  (forall t t', recapped_ty t t' -> forall fs fs', recapped_fields fs fs' ->
     forall vs id mem k v, write_ty c' fs' vs id mem k t' v = write_ty c fs vs id mem k t v) /\
  (forall gs gs', recapped_fields gs gs' -> forall fs fs', recapped_fields fs fs' ->
     forall vs ws, write_fields c' fs' vs gs' ws = write_fields c fs vs gs ws) /\
  (forall al al', recapped_alts al al' -> forall fs fs', recapped_fields fs fs' ->
     forall vs id i v, write_alts c' fs' vs id al' i v = write_alts c fs vs id al i v).
Proof.
  apply rc_ind; cbn [write_ty write_fields write_alts].
  - intros. apply cap_write_fixed. assumption.
  - intros e l b b' fs fs' R vs id mem k v. destruct v; auto.
    rewrite (rc_mk_env _ _ R), cap_verify_len, cap_write_var. reflexivity.
  - intros gs gs' G H fs fs' R vs id mem k v. destruct v; auto. rewrite (H _ _ G). reflexivity.
  - intros n gs gs' G H fs fs' R vs id mem k v. destruct v; auto. destruct (Nat.eqb _ _); auto.
    apply wfor_ext. intros []; auto. rewrite (H _ _ G). reflexivity.
  - intros gs gs' sz sz' l b b' G H fs fs' R vs id mem k v. destruct v; auto.
    rewrite (rc_mk_env _ _ R), cap_verify_len. apply wbind_ext. intros _.
    apply wfor_ext. intros []; auto. rewrite (H _ _ G). reflexivity.
  - intros b b' p ids B H fs fs' R vs id mem k v. rewrite (rc_mk_env _ _ R).
    destruct (lookups _ ids); auto. destruct (p l), v; auto.
  - intros g al al' A H fs fs' R vs id mem k v. destruct v; auto. rewrite (rc_mk_env _ _ R).
    destruct g; auto; destruct (deduce_type _ _) as [[j|]|]; auto; destruct (Nat.eqb j i); auto.
  - intros fs fs' R vs [|w ws]; reflexivity.
  - intros id t t' k gs gs' T H G H' fs fs' R vs [|w ws]; auto.
    rewrite (rc_derived _ _ R), (rc_frozen _ _ k T). apply wbind_ext2; [|intros _; auto].
    f_equal. apply wbind_ext. intros _. auto.
  - reflexivity.
  - intros t t' k al al' T H A H' fs fs' R vs id [|i] v; auto. apply wbind_ext. intros _. auto.
Qed.

Lemma recap_write fs fs' vs : recapped_fields fs fs' -> stream_cast c' fs' vs = stream_cast c fs vs.
Proof. intros R. apply cap_write; assumption. Qed.
End Cap.

(** ** Writing on a build with a narrower [size_t] *)
Inductive wle {E A} : wprog E A -> wprog E A -> Prop :=
| wle_err e p : wle (WErr e) p
| wle_ret a : wle (WRet a) (WRet a)
| wle_ub : wle WUB WUB
| wle_stuck p : wle WStuck p
| wle_write bs e k k' : wle k k' -> wle (WWrite bs e k) (WWrite bs e k').

Lemma wle_refl {E A} (p : wprog E A) : wle p p.
Proof. induction p; constructor; auto. Qed.

Lemma wle_bind {E A B} (p p' : wprog E A) (f f' : A -> wprog E B) :
  wle p p' -> (forall a, wle (f a) (f' a)) -> wle (wbind p f) (wbind p' f').
Proof. intros H Hf. induction H; simpl; try constructor; auto. Qed.

Lemma wle_maperr {E E' A} (g : E -> E') (p p' : wprog E A) : wle p p' -> wle (wmaperr g p) (wmaperr g p').
Proof. induction 1; simpl; constructor; auto. Qed.

Lemma wle_wfor {E A} (l : list A) (f g : A -> wprog E unit) : Forall (fun a => wle (f a) (g a)) l ->
  wle (wfor l f) (wfor l g).
Proof. induction 1; simpl; [constructor|]. apply wle_bind; auto. Qed.

Lemma wle_wrun {E A} (S : ostream) (p p' : wprog E A) : wle p p' -> forall s o s' ch,
  wrun S p s = (o, s', ch) -> (forall e, o <> Err e) -> o <> Stuck -> wrun S p' s = (o, s', ch).
Proof.
  induction 1; intros s o s' ch R N T; simpl in *; auto.
  - injection R as <- <- <-. destruct (N e eq_refl).
  - injection R as <- <- <-. destruct (T eq_refl).
  - destruct (o_write S s bs) as [[|] s1]; auto.
    destruct (wrun S k s1) as [[o1 s2] ch1] eqn:Q. injection R as <- <- <-.
    rewrite (IHwle _ _ _ _ Q N T). reflexivity.
Qed.

Lemma sizes_env w fs vs : Forall (sizes_below w) vs -> forall id v, lookup (mk_env fs vs) id = Some v -> sizes_below w v.
Proof.
  intros F. revert fs. induction F; intros fs id v L; [destruct fs; discriminate|].
  destruct fs; [discriminate|]. cbn in L. destruct (String.eqb id0 id); [injection L as <-; auto|eauto].
Qed.

Section Narrow.
Variables c c' : cfg.
Hypothesis N : narrower c c'.

Lemma nw_write_const t n v : write_const c' t n v = write_const c t n v.
Proof. unfold write_const. rewrite (na_host c c') by assumption. destruct N as (-> & _). reflexivity. Qed.

Lemma nw_write_var t l : write_var c' t l = write_var c t l.
Proof.
  unfold write_var. rewrite (na_host c c') by assumption. destruct N as (-> & _ & -> & _). reflexivity.
Qed.

Lemma nw_implied id t v : cases_below (c_szw c') t -> sizes_below (c_szw c') v ->
  implied c' id t v = implied c id t v /\
  forall z, implied c id t v = Some (Some z) -> below (c_szw c') z.
Proof.
  intros C V. unfold implied. destruct (ident_is (len_target t) id).
  - split; auto. intros z. destruct V; cbn; try discriminate. intros [= <-]. assumption.
  - destruct (ident_is (disc_target t) id); [|split; [auto|discriminate]].
    destruct t; try (split; [auto|discriminate]). destruct g; try (split; [auto|discriminate]).
    destruct v; try (split; [auto|discriminate]). cbn in C. destruct C as [C _]. unfold value_at.
    destruct (nth_error cases i) as [[u z]|] eqn:E; [|split; [auto|discriminate]].
    rewrite Forall_forall in C. specialize (C _ (nth_error_In _ _ E)). cbn in C.
    destruct (to_size_below c c' N z C) as [-> ->]. split; auto. cbn. intros z' [= <-]. exact C.
Qed.

Lemma nw_derive_fold id : forall fs vs, cases_below_fields (c_szw c') fs -> Forall (sizes_below (c_szw c')) vs ->
  forall d, below (c_szw c') (d_val d) ->
  derive_fold c' id fs vs d = derive_fold c id fs vs d /\
  forall d', derive_fold c id fs vs d = Some d' -> below (c_szw c') (d_val d').
Proof.
  induction fs as [|i t k fs IH]; intros [|v vs] C V d B; cbn [derive_fold]; auto;
    try (split; [reflexivity|discriminate]).
  - split; [auto|]. intros d' [= <-]. exact B.
  - destruct C as [C1 C2]. inversion V; subst. destruct (nw_implied id t v C1 H1) as [E Q]. rewrite E.
    destruct (implied c id t v) as [[z|]|]; [|apply IH; auto|split; [reflexivity|discriminate]].
    apply IH; cbn; auto.
Qed.

Lemma nw_fits s n v : below (c_szw c') v -> fits_declared_width c s n v = true -> fits_declared_width c' s n v = true.
Proof.
  intros B. unfold fits_declared_width. intros H. apply andb_prop in H as [H1 H2]. apply andb_true_intro. split.
  - destruct N as (_ & _ & _ & _ & W). destruct (Nat.ltb_spec n (c_szw c')); auto.
    destruct (Nat.ltb_spec n (c_szw c)); auto. lia.
  - apply Z.eqb_eq in H2. apply Z.eqb_eq. rewrite (to_size_narrow c c'); auto. rewrite H2. exact B.
Qed.

Lemma nw_derive_value fs vs id t n : cases_below_fields (c_szw c') fs -> Forall (sizes_below (c_szw c')) vs ->
  match derive_value c fs vs id t n with
  | DErr _ => True
  | d => derive_value c' fs vs id t n = d
  end.
Proof.
  intros C V. unfold derive_value. destruct t; auto.
  assert (B0 : below (c_szw c') (d_val (mkD 0 false true))).
  { unfold below. cbn. pose proof (pow256_pos (c_szw c')). lia. }
  destruct (nw_derive_fold id fs vs C V _ B0) as [-> Q].
  destruct (derive_fold c id fs vs (mkD 0 false true)) as [d|]; auto. destruct (negb (d_agreed d)); auto.
  destruct (fits_declared_width c s n (d_val d)) eqn:F; cbn [negb]; auto.
  rewrite (nw_fits _ _ _ (Q _ eq_refl) F). reflexivity.
Qed.

Lemma nw_cond_agrees e id z t v : sizes_below (c_szw c') v ->
  cond_agrees e id (to_size c z) t v = Some true -> cond_agrees e id (to_size c' z) t v = Some true.
Proof.
  intros V.
  assert (Q : forall v', sizes_below (c_szw c') v' ->
    option_map (fun n => n =? to_size c z) (val_size v') = Some true ->
    option_map (fun n => n =? to_size c' z) (val_size v') = Some true).
  { intros v' S. destruct S; cbn; auto. intros [= E]. apply Z.eqb_eq in E.
    rewrite (to_size_narrow c c'); auto; [|rewrite <- E; assumption]. rewrite E, Z.eqb_refl. reflexivity. }
  unfold cond_agrees. destruct (ident_is (cond_target t) id).
  - destruct t; auto. destruct v; auto. destruct (lookups e ids); auto. destruct (p l); auto.
    apply Q. inversion V; assumption.
  - destruct t; auto. destruct v; auto. destruct (a_nth i al) as [[t' k]|]; auto.
    destruct (ident_is (len_target t') id); auto. apply Q. inversion V; assumption.
Qed.

Lemma nw_verify_cond e id z : forall fs vs, Forall (sizes_below (c_szw c')) vs ->
  verify_cond e id (to_size c z) fs vs = Some true -> verify_cond e id (to_size c' z) fs vs = Some true.
Proof.
  induction fs as [|i t k fs IH]; intros [|v vs] V; cbn [verify_cond]; auto.
  inversion V; subst. destruct (cond_agrees e id (to_size c z) t v) as [[|]|] eqn:EA; try discriminate;
    destruct (verify_cond e id (to_size c z) fs vs) as [[|]|] eqn:EV; try discriminate.
  intros _. rewrite (nw_cond_agrees _ _ _ _ _ H1 EA), (IH _ H2 EV). reflexivity.
Qed.

Lemma nw_verify_then_write fs vs id t n v : Forall (sizes_below (c_szw c')) vs ->
  wle (verify_then_write c fs vs id t n v) (verify_then_write c' fs vs id t n v).
Proof.
  intros V. unfold verify_then_write. rewrite nw_write_const. destruct (has_cond_obligation fs id); [|apply wle_refl].
  destruct v; try constructor. destruct (verify_cond (mk_env fs vs) id (to_size c z) fs vs) as [[|]|] eqn:E; try constructor.
  rewrite (nw_verify_cond _ _ _ _ _ V E). apply wle_refl.
Qed.

Lemma nw_write_fixed fs vs id mem k t n v : cases_below_fields (c_szw c') fs -> Forall (sizes_below (c_szw c')) vs ->
  wle (write_fixed c fs vs id mem k t n v) (write_fixed c' fs vs id mem k t n v).
Proof.
  intros C V. unfold write_fixed. destruct (is_derived fs id).
  - pose proof (nw_derive_value fs vs id t n C V) as D.
    destruct (derive_value c fs vs id t n); try constructor. rewrite D.
    apply wle_bind; [apply wle_refl|]. intros _. apply nw_verify_then_write, V.
  - destruct (mem && _); [destruct (frozen_value _ _); [|constructor]|]; apply nw_verify_then_write, V.
Qed.

Lemma nw_verify_len e l n : below (c_szw c') n -> wle (verify_len c e l n) (verify_len c' e l n).
Proof.
  intros B. unfold verify_len. destruct l; [constructor|].
  destruct (deduce_len c e (LenComp f ids)) as [z|] eqn:E; [|constructor].
  destruct (z =? n) eqn:Q; [|constructor]. apply Z.eqb_eq in Q. subst z.
  rewrite (na_deduce_len c c' N _ _ _ E B), Z.eqb_refl. constructor.
Qed.

Lemma nw_write :
  (forall t fs vs id mem k v, cases_below_fields (c_szw c') fs -> Forall (sizes_below (c_szw c')) vs ->
     cases_below (c_szw c') t -> sizes_below (c_szw c') v ->
     wle (write_ty c fs vs id mem k t v) (write_ty c' fs vs id mem k t v)) /\
  (forall gs fs vs ws, cases_below_fields (c_szw c') fs -> Forall (sizes_below (c_szw c')) vs ->
     cases_below_fields (c_szw c') gs -> Forall (sizes_below (c_szw c')) ws ->
     wle (write_fields c fs vs gs ws) (write_fields c' fs vs gs ws)) /\
  (forall al fs vs id i v, cases_below_fields (c_szw c') fs -> Forall (sizes_below (c_szw c')) vs ->
     cases_below_alts (c_szw c') al -> sizes_below (c_szw c') v ->
     wle (write_alts c fs vs id al i v) (write_alts c' fs vs id al i v)).
Proof.
  apply schema_mutind; cbn [write_ty write_fields write_alts cases_below cases_below_fields cases_below_alts].
  - intros t n fs vs id mem k v C V _ _. apply nw_write_fixed; assumption.
  - intros elt l b fs vs id mem k v C V _ S. destruct S; try constructor.
    rewrite nw_write_var. apply wle_bind; [apply nw_verify_len; assumption|intros; apply wle_refl].
  - intros gs H fs vs id mem k v C V G S. destruct S; try constructor. apply wle_maperr, H; auto.
  - intros n gs H fs vs id mem k v C V G S. destruct S as [| |l B F| | | |]; try constructor.
    destruct (Nat.eqb _ _); [|constructor]. apply wle_wfor. eapply Forall_impl; [|exact F].
    intros x X. destruct X; try constructor. apply wle_maperr, H; auto.
  - intros gs H sz l b fs vs id mem k v C V G S. destruct S as [| |xs B F| | | |]; try constructor.
    apply wle_bind; [apply nw_verify_len; assumption|]. intros _. apply wle_wfor. eapply Forall_impl; [|exact F].
    intros x X. destruct X; try constructor. apply wle_maperr, H; auto.
  - intros b H p ids fs vs id mem k v C V G S. destruct (lookups _ ids); [|constructor].
    destruct (p l), S; try constructor. auto.
  - intros g al H fs vs id mem k v C V [_ G] S. destruct S; try constructor.
    destruct g; auto; destruct (deduce_type _ _) as [[j|]|]; try constructor;
      destruct (Nat.eqb j i); try constructor; auto.
  - intros fs vs ws _ _ _ _. apply wle_refl.
  - intros id t H k gs H' fs vs ws C V [G1 G2] S. destruct S as [|w ws S1 S2]; [constructor|].
    apply wle_bind; [|intros _; auto]. apply wle_maperr, wle_bind; [apply wle_refl|]. auto.
  - intros fs vs id i v _ _ _ _. constructor.
  - intros t H k al H' fs vs id [|i] v C V [G1 G2] S; auto. apply wle_bind; [apply wle_refl|]. auto.
Qed.

Lemma narrow_write fs vs S s o s' ch : cases_below_fields (c_szw c') fs -> Forall (sizes_below (c_szw c')) vs ->
  wrun S (stream_cast c fs vs) s = (o, s', ch) -> (forall e, o <> Err e) -> o <> Stuck ->
  wrun S (stream_cast c' fs vs) s = (o, s', ch).
Proof. intros C V. apply wle_wrun. apply nw_write; assumption. Qed.
End Narrow.

(** ** Reading under another default ceiling *)

Section Declared.
Variables c c' : cfg.
Hypothesis SC : same_but_cap c c'.

Lemma cap_load t : forall mem, load c' t mem = load c t mem.
Proof.
  destruct SC as (Hh & Ho & _ & _).
  assert (Hb : forall w mem, load_bits c' w mem = load_bits c w mem).
  { intros w mem. unfold load_bits, is_host_order. rewrite Hh, Ho. auto. }
  induction t; intros mem; simpl; rewrite ?Hb; auto.
  rewrite (map_ext _ _ IHt). auto.
Qed.

Lemma cap_fixed t n : req (read_fixed c' t n) (read_fixed c t n).
Proof.
  unfold read_fixed. destruct (Nat.ltb (csize t) n); [constructor|]. constructor. intros bs.
  rewrite cap_load. apply req_refl.
Qed.

Lemma cap_len e l : deduce_len c' e l = deduce_len c e l.
Proof. destruct SC as (_ & _ & _ & Hs). unfold deduce_len, to_size. rewrite Hs. auto. Qed.

Lemma cap_ceiling b : b <> None -> ceiling c' b = ceiling c b.
Proof.
  destruct SC as (_ & _ & _ & Hs). intros Hb. unfold ceiling, to_size. rewrite Hs. destruct b; auto. congruence.
Qed.

Lemma cap_var elt len b : b <> None -> req (read_var c' elt len b) (read_var c elt len b).
Proof.
  intros Hb. unfold read_var. rewrite (cap_ceiling b Hb).
  destruct (len_allowed _ _ _); [|constructor]. constructor. apply req_bind.
  - destruct SC as (_ & _ & Hc & Hs). unfold read_raw, to_size. rewrite Hc, Hs. apply req_refl.
  - intros mem. rewrite (map_ext _ _ (cap_load elt)). apply req_refl.
Qed.

Definition bounded (l : list (Z * option Z)) : Prop := Forall (fun eb => snd eb <> None) l.

Lemma cap_read :
  (forall t e, bounded (containers t) -> req (read_ty c' e t) (read_ty c e t)) /\
  (forall fs e, bounded (containers_fields fs) -> req (read_fields c' e fs) (read_fields c e fs)) /\
  (forall al e i, bounded (containers_alts al) -> req (read_alts c' e al i) (read_alts c e al i)).
Proof.
  unfold bounded.
  assert (Hrec : forall fs, (forall e, Forall (fun eb => snd eb <> None) (containers_fields fs) ->
      req (read_fields c' e fs) (read_fields c e fs)) ->
    Forall (fun eb => snd eb <> None) (containers_fields fs) ->
    req (rbind (rmaperr fst (read_fields c' (mk_env fs (default_fields fs)) fs)) (fun vs => RRet (VRec vs)))
        (rbind (rmaperr fst (read_fields c (mk_env fs (default_fields fs)) fs)) (fun vs => RRet (VRec vs)))).
  { intros fs IH Hb. apply req_bind; [apply req_maperr; auto|intros; apply req_refl]. }
  apply schema_mutind; cbn [read_ty read_fields read_alts containers containers_fields containers_alts].
  - intros t n e _. apply cap_fixed.
  - intros elt l b e Hb. inversion Hb; subst. rewrite cap_len.
    destruct (deduce_len c e l); [|constructor]. apply cap_var; auto.
  - intros fs IH e Hb. auto.
  - intros n fs IH e Hb. apply req_bind; [apply req_rrep; auto|intros; apply req_refl].
  - intros fs IH sz l b e Hb. inversion Hb; subst. rewrite cap_len.
    destruct (deduce_len c e l); [|constructor]. rewrite cap_ceiling by auto.
    destruct (len_allowed _ _ _); [|constructor]. constructor.
    apply req_bind; [apply req_rrep; auto|intros; apply req_refl].
  - intros b IH p ids e Hb. destruct (lookups e ids); [|constructor]. destruct (p l); [|constructor].
    apply req_bind; auto. intros; apply req_refl.
  - intros g al IH e Hb. destruct (deduce_type e g) as [[i|]|]; try constructor.
    apply req_bind; auto. intros; apply req_refl.
  - intros. apply req_refl.
  - intros id t IHt k fs IHfs e Hb. apply Forall_app in Hb. destruct Hb.
    apply req_bind.
    + apply req_maperr, req_bind; auto. intros; apply req_refl.
    + intros v. apply req_bind; auto. intros; apply req_refl.
  - intros. apply req_refl.
  - intros t IHt k al IHal e i Hb. apply Forall_app in Hb. destruct Hb. destruct i; auto.
    apply req_bind; auto. intros; apply req_refl.
Qed.
End Declared.

Lemma declared_read c c' fs S alloc s : same_but_cap c c' ->
  Forall (fun eb => snd eb <> None) (containers_fields fs) ->
  rrun S alloc (struct_cast c' fs) s = rrun S alloc (struct_cast c fs) s.
Proof. intros SC Hb. apply req_rrun. apply cap_read; auto. Qed.
