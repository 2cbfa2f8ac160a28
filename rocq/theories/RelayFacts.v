(** * The two byte orders compared *)
From Coq Require Import ZifyBool ZifyNat.
From Verif Require Import Read Write Spec RExact WSpec Typing MoreSpec PropDefs Laws Streams RelaySpec.
From Verif Require Import BytesFacts ProgFacts ReadFacts ReadMore Safety ReadLemmas LayoutFacts WriteFacts
  WriteMain WriteMore WriteLoc WriteErr WriteRel ReadFinal WriteFinal RExactFacts TotalFacts StreamFacts RTrip RTrip2 Rewrite
  SeqFacts LawFacts LawMore.

(** ** Bytes *)

Definition turned (ws : list nat) (a b : list Z) : Prop := length a = list_sum ws /\ b = turn ws a.

Lemma turned_nil : turned [] [] [].
Proof. split; auto. Qed.

Lemma turned_app ws a b ws' a' b' : turned ws a b -> turned ws' a' b' -> turned (ws ++ ws') (a ++ a') (b ++ b').
Proof.
  intros [L ->] [L' ->]. split; [rewrite app_length, list_sum_app; lia|].
  revert a L. induction ws as [|w ws IH]; intros a L.
  - destruct a; [auto|discriminate].
  - cbn [turn app list_sum fold_right] in *. change (fold_right Init.Nat.add 0%nat ws) with (list_sum ws) in L.
    rewrite firstn_app, skipn_app.
    replace (w - length a)%nat with 0%nat by lia. cbn [firstn skipn]. rewrite app_nil_r.
    rewrite <- app_assoc. f_equal. apply IH. rewrite skipn_length. lia.
Qed.

Lemma turned_flat {A} (w : A -> list nat) (f g : A -> list Z) l :
  Forall (fun x => turned (w x) (f x) (g x)) l -> turned (flat_map w l) (flat_map f l) (flat_map g l).
Proof. induction 1; cbn [flat_map]; auto using turned_nil, turned_app. Qed.

Lemma turned_one a : turned [length a] a (rev a).
Proof.
  split; [cbn; lia|]. cbn [turn]. rewrite firstn_all, app_nil_r. auto.
Qed.

Lemma turned_bytes l : turned (map (fun _ : Z => 1%nat) l) l l.
Proof.
  induction l as [|z l IH]; [apply turned_nil|]. apply (turned_app [1%nat] [z] [z] _ l l); auto.
  apply turned_one.
Qed.

Section Orders.
Variables o o' : endian.
Hypothesis Ho : o <> o'.

Lemma scalar_turned s z : turned [ssize s] (wire_scalar o s z) (wire_scalar o' s z).
Proof.
  rewrite <- (wire_scalar_length o s z).
  replace (wire_scalar o' s z) with (rev (wire_scalar o s z)); [apply turned_one|].
  destruct o, o'; try congruence; cbn; auto. apply rev_involutive.
Qed.

Lemma ct_turned t : forall v, turned (widths_ct t v) (enc_ct o t v) (enc_ct o' t v).
Proof.
  induction t as [s|n t IH|n|w]; intros v; cbn [widths_ct enc_ct]; destruct v; auto using turned_nil.
  - apply scalar_turned.
  - apply turned_flat. apply Forall_forall. auto.
  - replace (map (fun _ : val => 1%nat) l) with
      (map (fun _ : Z => 1%nat) (map (fun x => match x with VZ z => z | _ => 0 end) l)); [apply turned_bytes|].
    rewrite map_map. auto.
  - apply (scalar_turned (SInt w false)).
Qed.

Lemma enc_turned :
  (forall t v, full_ty t = true -> has_ty t v -> turned (widths_ty t v) (enc_ty o t v) (enc_ty o' t v)) /\
  (forall fs vs, full fs = true -> has_fields fs vs -> turned (widths fs vs) (enc_fields o fs vs) (enc_fields o' fs vs)) /\
  (forall al i v, full_alts al = true -> has_alt al i v -> turned (widths_alts al i v) (enc_alts o al i v) (enc_alts o' al i v)).
Proof.
  apply schema_mutind; cbn [full_ty full full_alts has_ty has_fields has_alt].
  - intros t n v H Hv. cbn [widths_ty enc_ty].
    pose proof (enc_ct_length o t v Hv). pose proof (enc_ct_length o' t v Hv).
    rewrite !firstn_all2 by lia. apply ct_turned.
  - intros e l b v _ Hv. destruct v; try tauto. cbn. apply turned_flat. apply Forall_forall. intros. apply ct_turned.
  - intros fs IH v H Hv. destruct v; try tauto. cbn. auto.
  - intros n fs IH v H Hv. destruct v; try tauto. cbn. apply turned_flat.
    destruct Hv as [_ Hv]. eapply Forall_impl; [|exact Hv]. intros [] Hx; try tauto. auto.
  - intros fs IH r l b v H Hv. destruct v; try tauto. cbn. apply turned_flat.
    eapply Forall_impl; [|exact Hv]. intros [] Hx; try tauto. auto.
  - intros b IH p ids v H Hv. destruct v; try tauto; cbn; auto using turned_nil.
  - intros g al IH v H Hv. destruct v; try tauto. cbn. auto.
  - intros [|v vs]; try tauto. intros. apply turned_nil.
  - intros id t IH k fs IHf [|v vs] H Hv; try tauto. apply andb_prop in H as [H1 H2].
    cbn. apply turned_app; intuition.
  - intros [] v _ [].
  - intros t IH k al IHa [|i] v H Hv; apply andb_prop in H as [H1 H2]; cbn; auto.
Qed.

Lemma fields_turned fs vs : full fs = true -> has_fields fs vs ->
  enc_fields o' fs vs = turn (widths fs vs) (enc_fields o fs vs).
Proof. intros. apply enc_turned; auto. Qed.
End Orders.

Lemma turn_length ws : forall bs, length bs = list_sum ws -> length (turn ws bs) = length bs.
Proof.
  induction ws as [|w ws IH]; intros bs L; cbn [turn].
  - destruct bs; [auto|discriminate].
  - change (list_sum (w :: ws)) with (w + list_sum ws)%nat in L.
    rewrite app_length, rev_length, firstn_length, IH; rewrite skipn_length; lia.
Qed.

(** ** Validity *)

Section Valid.
Variables c c' : cfg.
Hypothesis Hszw : c_szw c = c_szw c'.
Hypothesis Hdmax : c_dmax c = c_dmax c'.

Lemma full_valid_all :
  (forall t, full_ty t = true -> forall E v, valid_ty c E t v -> valid_ty c' E t v) /\
  (forall fs, full fs = true -> forall E vs, valid_fields c E fs vs -> valid_fields c' E fs vs) /\
  (forall al, full_alts al = true -> forall E i v, valid_alts c E al i v -> valid_alts c' E al i v).
Proof.
  assert (HL : forall E l n, len_is c E l n -> len_is c' E l n).
  { intros E l n. unfold len_is. rewrite Hszw. auto. }
  assert (HB : forall b esz n, within c b esz n -> within c' b esz n).
  { intros b esz n. unfold within. rewrite Hszw, Hdmax. auto. }
  apply schema_mutind; cbn [full_ty full full_alts].
  - intros t n H E v [H1 H2]. split; auto. unfold representable in *.
    rewrite skipn_all2; [constructor|]. rewrite enc_ct_length; auto. lia.
  - intros e l b H E v (xs & -> & H1 & H2 & H3). exists xs. auto 6.
  - intros fs IH H E v (vs & -> & Hv). exists vs. auto.
  - intros n fs IH H E v (xs & -> & Hn & Hv). exists xs. split; auto. split; auto.
    eapply Forall_impl; [|exact Hv]. intros x (vs & -> & Hx). eauto.
  - intros fs IH sz l b H E v (xs & -> & Hv & Hl & Hb). exists xs. split; auto. split; auto.
    eapply Forall_impl; [|exact Hv]. intros x (vs & -> & Hx). eauto.
  - intros b IH p ids H E v (args & Ha & Hv). exists args. split; auto.
    destruct (p args); auto. destruct Hv as (v' & -> & Hv). eauto.
  - intros g al IH H E v (i & v' & -> & Hs & Hv). exists i, v'. auto.
  - intros _ E [|v vs]; auto.
  - intros id t IHt k fs IHf H E [|v vs]; auto. apply andb_prop in H as [H1 H2].
    intros (A & B & C). cbn. auto.
  - intros _ E i v H. exact H.
  - intros t IHt k al IHa H E [|i] v; apply andb_prop in H as [H1 H2]; cbn; [intros [A B]|]; auto.
Qed.

Lemma full_valid fs vs : full fs = true -> valid c fs vs -> valid c' fs vs.
Proof. intros. apply full_valid_all; auto. Qed.
End Valid.

Lemma relay c c' fs bs vs rest : c_szw c = c_szw c' -> c_dmax c = c_dmax c' -> c_wire c <> c_wire c' ->
  wf fs = true -> typed fs = true -> full fs = true -> reversible c' fs = true ->
  Forall byte_ok bs -> rmem (struct_cast c fs) bs = (Ok vs, rest) ->
  exists used, bs = used ++ rest /\ list_sum (widths fs vs) = length used /\
    wmem (stream_cast c' fs vs) = (Ok tt, turn (widths fs vs) used) /\
    forall rest', rmem (struct_cast c' fs) (turn (widths fs vs) used ++ rest') = (Ok vs, rest').
Proof.
  intros H1 H2 Ho Hw Ht Hf Hr Hb H. apply read_sound in H as [Hv ->]; auto.
  assert (Hv' : valid c' fs vs) by (eapply full_valid; eauto).
  assert (Hh : has_fields fs vs) by (eapply (proj1 (proj2 valid_has)); exact Hv).
  destruct (proj1 (proj2 (enc_turned _ _ Ho)) fs vs Hf Hh) as [L E].
  exists (enc_fields (c_wire c) fs vs). split; auto. split; auto. rewrite <- E.
  split; [apply rewrite_valid; auto|]. intros rest'. apply read_complete; auto.
Qed.

(** ** Writing *)

Lemma claims_szw c c' id fs vs : c_szw c = c_szw c' -> claims c id fs vs = claims c' id fs vs.
Proof.
  intros Hz. revert vs. induction fs as [|i t k fs IH]; intros [|v vs]; cbn [claims]; auto.
  rewrite IH. f_equal. unfold claim. rewrite ?Hz. auto.
Qed.

Definition alike {E A} (r r' : outcome E A * list Z) : Prop :=
  fst r = fst r' /\ length (snd r) = length (snd r').

Lemma alike_refl {E A} (r : outcome E A * list Z) : alike r r.
Proof. split; auto. Qed.

Lemma alike_bind {E A B} (p p' : wprog E A) (f f' : A -> wprog E B) :
  alike (wmem p) (wmem p') -> (forall a, alike (wmem (f a)) (wmem (f' a))) ->
  alike (wmem (wbind p f)) (wmem (wbind p' f')).
Proof.
  intros [H1 H2] Hf. rewrite !wmem_bind. destruct (wmem p) as [x o1], (wmem p') as [y o2]. cbn in H1, H2. subst y.
  destruct x as [a|e| | |]; try (split; auto; fail).
  specialize (Hf a). destruct (wmem (f a)) as [u o3], (wmem (f' a)) as [u' o4]. destruct Hf as [H3 H4].
  cbn in *. split; auto. cbn. rewrite !app_length. lia.
Qed.

Lemma alike_maperr {E E' A} (g : E -> E') (p p' : wprog E A) : alike (wmem p) (wmem p') ->
  alike (wmem (wmaperr g p)) (wmem (wmaperr g p')).
Proof.
  intros [H1 H2]. rewrite !wmem_maperr. destruct (wmem p) as [x o1], (wmem p') as [y o2]. cbn in *. subst y.
  split; destruct x; auto.
Qed.

Lemma alike_wfor {E A} (l : list A) (f f' : A -> wprog E unit) :
  Forall (fun a => alike (wmem (f a)) (wmem (f' a))) l -> alike (wmem (wfor l f)) (wmem (wfor l f')).
Proof. induction 1; simpl; auto using alike_refl. apply alike_bind; auto. Qed.

Section Write.
Variables (c : cfg) (o : endian) (m : Z).
Let d := mkCfg (c_host c) o (c_cx c) (c_szw c) m.

Lemma ok_const t n v : ct_wf t = true ->
  match t with TScalar _ | TFloat _ => (n <= csize t)%nat | _ => n = csize t end -> ct_ok t v ->
  alike (wmem (write_const c t n v)) (wmem (write_const d t n v)).
Proof.
  intros Hw Hn Hv. rewrite !write_const_ok by auto. cbn [d c_wire]. split; auto. cbn [snd].
  rewrite !firstn_length, !enc_ct_length by auto. auto.
Qed.

Lemma ok_var t l : ct_wf t = true -> Forall (ct_ok t) l ->
  alike (wmem (write_var c t l)) (wmem (write_var d t l)).
Proof.
  intros Hw Hv. rewrite !write_var_ok by auto. cbn [d c_wire]. split; auto. cbn [snd].
  clear Hw. induction Hv as [|x l Hx _ IH]; auto. cbn [flat_map]. rewrite !app_length, IH, !enc_ct_length by auto. auto.
Qed.

Lemma ok_verify fs vs id t n v : ct_wf t = true ->
  match t with TScalar _ | TFloat _ => (n <= csize t)%nat | _ => n = csize t end -> ct_ok t v ->
  alike (wmem (verify_then_write c fs vs id t n v)) (wmem (verify_then_write d fs vs id t n v)).
Proof.
  intros. unfold verify_then_write. destruct (has_cond_obligation fs id); [|apply ok_const; auto].
  destruct v; auto using alike_refl. change (to_size d) with (to_size c).
  destruct (verify_cond _ _ _ _ _) as [[|]|]; auto using alike_refl. apply ok_const; auto.
Qed.

Lemma order_write_all :
  (forall t fs vs id mem k v G seen, wf_ty seen t = true -> typed_ty G t = true ->
     constr_ok t k = true -> has_ty t v ->
     alike (wmem (write_ty c fs vs id mem k t v)) (wmem (write_ty d fs vs id mem k t v))) /\
  (forall gs fs vs ws G seen, wf_fields seen gs = true ->
     typed_fields G gs = true -> has_fields gs ws ->
     alike (wmem (write_fields c fs vs gs ws)) (wmem (write_fields d fs vs gs ws))) /\
  (forall al fs vs id i v G seen, wf_alts seen al = true ->
     typed_alts G al = true -> has_alt al i v ->
     alike (wmem (write_alts c fs vs id al i v)) (wmem (write_alts d fs vs id al i v))).
Proof.
  apply schema_mutind.
  - intros t n fs vs id mem k v G seen Hw Ht Hk Hv. cbn [write_ty wf_ty has_ty] in *.
    apply andb_true_iff in Hw. destruct Hw as [W1 W2].
    assert (W3 : match t with TScalar _ | TFloat _ => (n <= csize t)%nat | _ => n = csize t end) by (destruct t; lia).
    unfold write_fixed. destruct (is_derived fs id).
    + rewrite (derive_value_same c d eq_refl). unfold derive_value. destruct t; auto using alike_refl.
      destruct (derive_fold _ _ _ _ _) as [dd|]; auto using alike_refl. destruct (negb (d_agreed dd)); auto using alike_refl.
      destruct (negb _); auto using alike_refl. apply alike_bind; auto using alike_refl. intros _.
      apply ok_verify; auto using alike_refl. simpl. apply conv_in.
    + destruct mem; cbn [andb]; [|apply ok_verify; auto].
      unfold is_frozen. rewrite frozen_pinned. destruct (pinned t k) as [w|] eqn:Ep.
      * apply ok_verify; auto using alike_refl. eapply pinned_ok; eauto.
      * apply ok_verify; auto using alike_refl.
  - intros elt l b fs vs id mem k v G seen Hw Ht Hk Hv. cbn [write_ty wf_ty has_ty] in *.
    apply andb_true_iff in Hw. destruct Hw as [W1 W2]. destruct v; auto using alike_refl. apply alike_bind.
    + unfold verify_len. destruct l; auto using alike_refl.
    + intros _. apply ok_var; auto using alike_refl.
  - intros gs IH fs vs id mem k v G seen Hw Ht Hk Hv. cbn [write_ty wf_ty typed_ty has_ty] in *.
    destruct v; auto using alike_refl. apply alike_maperr. eapply IH; eauto.
  - intros n gs IH fs vs id mem k v G seen Hw Ht Hk Hv. cbn [write_ty wf_ty typed_ty has_ty] in *.
    destruct v; auto using alike_refl. destruct (Nat.eqb _ _); auto using alike_refl. destruct Hv as [_ Hv]. apply alike_wfor.
    eapply Forall_impl; [|exact Hv]. intros [] Hx; try tauto. apply alike_maperr. eapply IH; eauto.
  - intros gs IH recsz l b fs vs id mem k v G seen Hw Ht Hk Hv. cbn [write_ty wf_ty typed_ty has_ty] in *.
    rewrite !andb_true_iff in *; repeat match goal with H : _ /\ _ |- _ => destruct H end. destruct v; auto using alike_refl.
    apply alike_bind; [unfold verify_len; destruct l; auto using alike_refl|].
    intros _. apply alike_wfor. eapply Forall_impl; [|exact Hv]. intros [] Hx; try tauto.
    apply alike_maperr. eapply IH; eauto using alike_refl; tauto.
  - intros b IH p ids fs vs id mem k v G seen Hw Ht Hk Hv. cbn [write_ty wf_ty typed_ty has_ty] in *.
    rewrite !andb_true_iff in *; repeat match goal with H : _ /\ _ |- _ => destruct H end. destruct (lookups _ ids) as [args|]; auto using alike_refl.
    destruct (p args), v; auto using alike_refl. eapply IH; eauto using alike_refl; try tauto.
  - intros g al IH fs vs id mem k v G seen Hw Ht Hk Hv. cbn [write_ty wf_ty typed_ty has_ty] in *.
    rewrite !andb_true_iff in *; repeat match goal with H : _ /\ _ |- _ => destruct H end. destruct v; auto using alike_refl.
    assert (Ha : alike (wmem (write_alts c fs vs id al i v)) (wmem (write_alts d fs vs id al i v)))
      by (eapply IH; eauto using alike_refl; tauto).
    destruct g; auto using alike_refl; destruct (deduce_type _ _) as [[j|]|]; auto using alike_refl; destruct (Nat.eqb j i); auto using alike_refl.
  - intros fs vs [|]; auto using alike_refl.
  - intros id t IHt k gs IHgs fs vs [|w ws] G seen Hw Ht Hv;
      cbn [write_fields wf_fields typed_fields has_fields] in *; auto using alike_refl.
    rewrite !andb_true_iff in *; repeat match goal with H : _ /\ _ |- _ => destruct H end. apply alike_bind.
    + apply alike_maperr. apply alike_bind; auto using alike_refl. intros _. eapply IHt; eauto using alike_refl; tauto.
    + intros _. eapply IHgs; eauto using alike_refl; try tauto.
  - auto using alike_refl.
  - intros t IHt k al IHal fs vs id i v G seen Hw Ht Hv. cbn [write_alts wf_alts typed_alts has_alt] in *.
    rewrite !andb_true_iff in *; repeat match goal with H : _ /\ _ |- _ => destruct H end. destruct i.
    + apply alike_bind; auto using alike_refl. intros _. eapply IHt; eauto using alike_refl; tauto.
    + eapply IHal; eauto using alike_refl; tauto.
Qed.
End Write.

Lemma order_outcome c c' fs vs : c_szw c = c_szw c' -> wf fs = true -> typed fs = true -> has_fields fs vs ->
  fst (wmem (stream_cast c fs vs)) = fst (wmem (stream_cast c' fs vs)) /\
  length (snd (wmem (stream_cast c fs vs))) = length (snd (wmem (stream_cast c' fs vs))).
Proof.
  intros Hz Hw Ht Hv.
  rewrite <- (stream_cast_same (mkCfg (c_host c) (c_wire c') (c_cx c) (c_szw c) (c_dmax c')) c') by (auto; split; auto).
  eapply (proj1 (proj2 (order_write_all c (c_wire c') (c_dmax c')))); eauto.
Qed.

Section Emit.
Variables c c' : cfg.
Hypothesis Hz : c_szw c = c_szw c'.

Lemma emit_szw :
  (forall t v, emit_ty c t v = emit_ty c' t v) /\
  (forall fs cl cl' vs, (forall i, cl i = cl' i) -> emit_fields c cl fs vs = emit_fields c' cl' fs vs) /\
  (forall al i v, emit_alts c al i v = emit_alts c' al i v).
Proof.
  assert (HC : forall fs vs i, hd_error (claims c i fs vs) = hd_error (claims c' i fs vs)).
  { intros. rewrite (claims_szw c c'); auto. }
  apply schema_mutind; auto.
  - intros fs IH v. cbn [emit_ty]. destruct v; auto. f_equal. auto.
  - intros n fs IH v. cbn [emit_ty]. destruct v; auto. f_equal. apply map_ext. intros []; auto. f_equal. auto.
  - intros fs IH r l b v. cbn [emit_ty]. destruct v; auto. f_equal. apply map_ext. intros []; auto. f_equal. auto.
  - intros b IH p ids v. cbn [emit_ty]. destruct v; auto. f_equal. auto.
  - intros g al IH v. cbn [emit_ty]. destruct v; auto. f_equal. auto.
  - intros id t IH k fs IHf cl cl' [|v vs] H; auto. cbn [emit_fields]. rewrite H, IH. f_equal. auto.
  - intros t IH k al IHa [|i] v; cbn [emit_alts]; auto.
Qed.

Lemma emitted_szw fs vs : emitted c fs vs = emitted c' fs vs.
Proof. unfold emitted. apply emit_szw. intros i. rewrite (claims_szw c c'); auto. Qed.
End Emit.

Lemma write_turned c c' fs vs out : c_szw c = c_szw c' -> c_wire c <> c_wire c' ->
  wf fs = true -> typed fs = true -> full fs = true -> has_fields fs vs ->
  wmem (stream_cast c fs vs) = (Ok tt, out) ->
  list_sum (widths fs (emitted c fs vs)) = length out /\
  wmem (stream_cast c' fs vs) = (Ok tt, turn (widths fs (emitted c fs vs)) out).
Proof.
  intros Hz Ho Hw Ht Hf Hv H. pose proof (write_encodes c fs vs out Hw Ht Hv H) as ->.
  destruct (order_outcome c c' fs vs Hz Hw Ht Hv) as [H1 _]. rewrite H in H1. cbn in H1.
  destruct (wmem (stream_cast c' fs vs)) as [r out'] eqn:E. cbn in H1. subst r.
  pose proof (write_encodes c' fs vs out' Hw Ht Hv E) as ->.
  rewrite <- (emitted_szw c c' Hz) in *.
  destruct (proj1 (proj2 (enc_turned _ _ Ho)) fs (emitted c fs vs) Hf (emitted_has c fs vs Ht Hv)) as [L ->].
  auto.
Qed.
