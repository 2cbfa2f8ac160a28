(** Facts about comparing casts. *)
From Coq Require Import ZifyBool ZifyNat.
From Verif Require Import Read Spec RExact PropDefs Laws BytesFacts ProgFacts ReadFacts ReadMore
  ReadLemmas ReadFinal RExactFacts.

(** ** Laxer schemas *)

Scheme laxer_ty_mut := Minimality for laxer_ty Sort Prop
with laxer_fields_mut := Minimality for laxer_fields Sort Prop
with laxer_alts_mut := Minimality for laxer_alts Sort Prop.
Combined Scheme laxer_mutind from laxer_ty_mut, laxer_fields_mut, laxer_alts_mut.

Lemma laxer_wf c c' :
  (forall t t', laxer_ty c c' t t' -> forall seen, wf_ty seen t = wf_ty seen t') /\
  (forall fs fs', laxer_fields c c' fs fs' -> forall seen, wf_fields seen fs = wf_fields seen fs') /\
  (forall al al', laxer_alts c c' al al' -> forall seen, wf_alts seen al = wf_alts seen al').
Proof.
  apply laxer_mutind; intros; cbn [wf_ty wf_fields wf_alts]; auto;
    repeat match goal with H : forall seen, _ = _ |- _ => rewrite H; clear H end; auto.
Qed.

Lemma laxer_enc c c' o :
  (forall t t', laxer_ty c c' t t' -> forall v, enc_ty o t v = enc_ty o t' v) /\
  (forall fs fs', laxer_fields c c' fs fs' -> forall vs, enc_fields o fs vs = enc_fields o fs' vs) /\
  (forall al al', laxer_alts c c' al al' -> forall i v, enc_alts o al i v = enc_alts o al' i v).
Proof.
  apply laxer_mutind; intros; cbn [enc_ty enc_fields enc_alts]; auto.
  - destruct v; auto.
  - destruct v; auto. apply flat_map_ext. intros []; auto.
  - destruct v; auto. apply flat_map_ext. intros []; auto.
  - destruct v; auto.
  - destruct v; auto.
  - destruct vs; auto. f_equal; auto.
  - destruct i; auto.
Qed.

Lemma laxer_names c c' fs fs' : laxer_fields c c' fs fs' ->
  forall vs, mk_env fs vs = mk_env fs' vs.
Proof. induction 1; intros [|v vs]; simpl; f_equal; auto. Qed.

Section Lax.
Variables c c' : cfg.
Hypothesis Hwire : c_wire c = c_wire c'.
Hypothesis Hszw : c_szw c = c_szw c'.

Lemma lax_len E l n : len_is c E l n -> len_is c' E l n.
Proof. unfold len_is. rewrite Hszw. auto. Qed.

Lemma lax_within b b' esz n : laxer_bound c c' b b' -> within c b esz n -> within c' b' esz n.
Proof. unfold laxer_bound, ceiling_of, within. lia. Qed.

Lemma laxer_valid :
  (forall t t', laxer_ty c c' t t' -> forall E v, valid_ty c E t v -> valid_ty c' E t' v) /\
  (forall fs fs', laxer_fields c c' fs fs' -> forall E vs, valid_fields c E fs vs -> valid_fields c' E fs' vs) /\
  (forall al al', laxer_alts c c' al al' -> forall E i v, valid_alts c E al i v -> valid_alts c' E al' i v).
Proof.
  apply laxer_mutind.
  - intros t n E v. cbn. rewrite Hwire. auto.
  - intros e l b b' Hb E v (xs & -> & Hx & Hl & Hw). cbn. exists xs.
    split; [auto|]. split; [auto|]. split; [apply lax_len|eapply lax_within]; eauto.
  - intros fs fs' L IH E v (vs & -> & H). cbn. exists vs. split; auto.
    rewrite <- (laxer_names _ _ _ _ L). auto.
  - intros n fs fs' L IH E v (xs & -> & Hn & H). cbn. exists xs. split; auto. split; auto.
    eapply Forall_impl; [|exact H]. intros x (vs & -> & Hv). exists vs. split; auto.
    rewrite <- (laxer_names _ _ _ _ L). auto.
  - intros fs fs' sz l b b' L IH Hb E v (xs & -> & H & Hl & Hw). cbn. exists xs. split; auto.
    split; [|split; [apply lax_len|eapply lax_within]; eauto].
    eapply Forall_impl; [|exact H]. intros x (vs & -> & Hv). exists vs. split; auto.
    rewrite <- (laxer_names _ _ _ _ L). auto.
  - intros b b' p ids L IH E v (args & Ha & H). cbn. exists args. split; auto.
    destruct (p args); auto. destruct H as (v' & -> & H). eauto.
  - intros g al al' L IH E v (i & v' & -> & Hs & H). cbn. eauto 6.
  - intros E [|v vs]; auto.
  - intros id t t' k k' fs fs' L IH Hk L' IH' E [|v vs]; auto.
    intros (H1 & H2 & H3). cbn. auto.
  - intros E i v H. exact H.
  - intros t t' k k' al al' L IH Hk L' IH' E [|i] v; cbn; [intros [H1 H2]; auto | auto].
Qed.

(** Faults other than a violated constraint and a ceiling. *)
Lemma laxer_fault r : r <> ValidationFailure -> r <> ExcessiveLength ->
  (forall t t', laxer_ty c c' t t' -> forall E bs, rfault_ty c E t bs r -> rfault_ty c' E t' bs r) /\
  (forall fs fs', laxer_fields c c' fs fs' -> forall E bs, rfault_fields c E fs bs r -> rfault_fields c' E fs' bs r) /\
  (forall al al', laxer_alts c c' al al' -> forall E i bs, rfault_alts c E al i bs r -> rfault_alts c' E al' i bs r).
Proof.
  intros Hv He. destruct laxer_valid as (LV & LF & LA).
  destruct (laxer_enc c c' (c_wire c)) as (NV & NF & NA).
  assert (HR : forall fs fs' xs, laxer_fields c c' fs fs' -> valid_records c fs xs ->
            valid_records c' fs' xs /\ enc_records (c_wire c) fs xs = enc_records (c_wire c') fs' xs).
  { intros fs fs' xs L H. split.
    - eapply Forall_impl; [|exact H]. intros x (ws & -> & Hw). exists ws. split; auto.
      unfold valid in *. rewrite <- (laxer_names _ _ _ _ L). eauto.
    - unfold enc_records. rewrite <- Hwire. apply flat_map_ext. intros []; auto. }
  apply laxer_mutind.
  - intros t n E bs H. exact H.
  - intros e l b b' Hb E bs (n & Hl & [[_ H]|(Hw & H)]); [contradiction|].
    exists n. split; [apply lax_len; auto|]. right. split; [eapply lax_within; eauto|auto].
  - intros fs fs' L IH E bs H. cbn in *. auto.
  - intros n fs fs' L IH E bs (xs & rest & Hn & Hx & -> & H). cbn. exists xs, rest.
    destruct (HR _ _ _ L Hx) as [Hx' ->]. auto.
  - intros fs fs' sz l b b' L IH Hb E bs (n & Hl & [[_ H]|(Hw & xs & rest & Hn & Hx & -> & H)]);
      [contradiction|].
    exists n. split; [apply lax_len; auto|]. right. split; [eapply lax_within; eauto|].
    exists xs, rest. destruct (HR _ _ _ L Hx) as [Hx' ->]. auto.
  - intros b b' p ids L IH E bs (args & Ha & Hp & H). cbn. eauto.
  - intros g al al' L IH E bs [[H1 H2]|(i & Hs & H)]; cbn; [left; auto|right; eauto].
  - intros E bs [].
  - intros id t t' k k' fs fs' L IH Hk L' IH' E bs [H|(v & rest & H1 & -> & [[_ H]|[H2 H3]])];
      cbn; [left; auto|contradiction|].
    right. exists v, rest. split; [eauto|]. split; [rewrite <- Hwire; f_equal; auto|]. right.
    split; auto.
  - intros E i bs [].
  - intros t t' k k' al al' L IH Hk L' IH' E [|i] bs; cbn; auto.
    intros [H|(v & rest & _ & _ & _ & H)]; [left; auto|contradiction].
Qed.

Lemma laxer_app pre gs fs' : laxer_fields c c' (f_app pre gs) fs' ->
  exists pre' gs', fs' = f_app pre' gs' /\ laxer_fields c c' pre pre' /\ laxer_fields c c' gs gs'.
Proof.
  revert fs'. induction pre as [|id t k pre IH]; intros fs' H; cbn in H.
  - exists FNil, fs'. repeat split; auto. constructor.
  - inversion H; subst. destruct (IH _ H7) as (pre' & gs' & -> & L1 & L2).
    exists (FCons id t' k' pre'), gs'. split; auto. split; auto. constructor; auto.
Qed.

Lemma laxer_ids fs fs' : laxer_fields c c' fs fs' -> f_ids fs = f_ids fs'.
Proof. induction 1; simpl; f_equal; auto. Qed.

Lemma laxer_ok fs fs' bs vs rest : laxer_fields c c' fs fs' -> wf fs = true -> Forall byte_ok bs ->
  rmem (struct_cast c fs) bs = (Ok vs, rest) -> rmem (struct_cast c' fs') bs = (Ok vs, rest).
Proof.
  intros L Hw Hb H. apply read_ok_iff in H as [Hv ->]; auto.
  apply read_ok_iff; auto.
  - unfold wf. rewrite <- (proj1 (proj2 (laxer_wf c c')) _ _ L). exact Hw.
  - split; [|rewrite <- Hwire, (proj1 (proj2 (laxer_enc c c' (c_wire c))) _ _ L); auto].
    unfold valid. rewrite <- (laxer_names _ _ _ _ L).
    eapply (proj1 (proj2 laxer_valid)); eauto.
Qed.

Lemma laxer_err fs fs' bs r id : laxer_fields c c' fs fs' -> wf fs = true -> typed fs = true ->
  typed fs' = true -> Forall byte_ok bs ->
  fst (rmem (struct_cast c fs) bs) = Err (r, id) -> r <> ValidationFailure -> r <> ExcessiveLength ->
  fst (rmem (struct_cast c' fs') bs) = Err (r, id).
Proof.
  intros L Hw Ht Ht' Hb H Hv He.
  apply read_err_iff in H as (pre & t & k & post & vs & rest & -> & Hp & -> & Hf); auto.
  assert (Hw' : wf fs' = true).
  { unfold wf. rewrite <- (proj1 (proj2 (laxer_wf c c')) _ _ L). exact Hw. }
  destruct (laxer_app _ _ _ L) as (pre' & gs' & -> & L1 & L2). inversion L2; subst.
  apply read_err_iff; auto.
  exists pre', t', k', fs', vs, rest. split; auto.
  split; [unfold valid; rewrite <- (laxer_names _ _ _ _ L1); eapply (proj1 (proj2 laxer_valid)); eauto|].
  split; [rewrite <- Hwire, (proj1 (proj2 (laxer_enc c c' (c_wire c))) _ _ L1); auto|].
  rewrite <- (laxer_names _ _ _ _ L1).
  destruct Hf as [Hf|(v & q & _ & _ & _ & Hf)]; [|contradiction].
  left. eapply (proj1 (laxer_fault r Hv He)); eauto.
Qed.

(** The laxer read gets at least as far. *)
Lemma laxer_progress fs fs' bs r id : laxer_fields c c' fs fs' -> wf fs = true -> typed fs = true ->
  Forall byte_ok bs -> fst (rmem (struct_cast c fs) bs) = Err (r, id) ->
  forall r' id', fst (rmem (struct_cast c' fs') bs) = Err (r', id') ->
  exists before after, f_ids fs = before ++ id :: after /\ In id' (id :: after).
Proof.
  intros L Hw Ht Hb H r' id' H'.
  apply read_err_iff in H as (pre & t & k & post & vs & rest & -> & Hp & Hbs & _); auto.
  exists (f_ids pre), (f_ids post). split; [apply f_ids_app|].
  assert (Hw' : wf fs' = true).
  { unfold wf. rewrite <- (proj1 (proj2 (laxer_wf c c')) _ _ L). exact Hw. }
  destruct (laxer_app _ _ _ L) as (pre' & gs' & -> & L1 & L2).
  assert (Hok : rmem (struct_cast c' pre') bs = (Ok vs, rest)).
  { apply (laxer_ok pre pre' bs vs rest L1); [eapply wf_app_l; eauto|auto|].
    apply read_ok_iff; auto. eapply wf_app_l; eauto. }
  change (id :: f_ids post) with (f_ids (FCons id t k post)). rewrite (laxer_ids _ _ L2).
  revert H'. pose proof (struct_cast_app c' pre' gs' Hw') as Hq.
  rewrite (req_rmem _ _ Hq bs). rewrite rmem_bind, Hok.
  rewrite rmem_bind. generalize (updates (mk_env (f_app pre' gs') (default_fields (f_app pre' gs'))) pre' vs).
  intros E.
  destruct (rmem (read_fields c' E gs') rest) as [o q] eqn:Er. destruct o; cbn; try discriminate.
  intros [= ->]. clear - Er. revert E rest q Er.
  induction gs' as [|i t k gs' IH]; intros E rest q Er; cbn [read_fields] in Er; [discriminate|].
  rewrite rmem_bind, rmem_maperr in Er.
  destruct (rmem (rbind _ _) rest) as [[v|e| | |] q1]; cbn in Er; try discriminate.
  - rewrite rmem_bind in Er. destruct (rmem (read_fields _ _ gs') q1) as [[|[]| | |] q2] eqn:E2; cbn in Er; try discriminate.
    injection Er as -> -> ->. right. eapply IH. eauto.
  - injection Er as <- <- <-. left. auto.
Qed.

End Lax.

(** ** Schemas of single bytes *)

Lemma le_enc_one b : rev (le_enc 1 b) = le_enc 1 b.
Proof. reflexivity. Qed.

Lemma one_byte_enc o o' t : one_byte t = true -> forall v, enc_ct o t v = enc_ct o' t v.
Proof.
  induction t; cbn [one_byte]; intros H v; cbn [enc_ct]; auto.
  - destruct v; auto. apply Nat.eqb_eq in H. unfold wire_scalar. rewrite H.
    destruct o, o'; auto using le_enc_one.
  - destruct v; auto. apply flat_map_ext. auto.
  - destruct v; auto. apply Nat.eqb_eq in H. unfold wire_scalar. cbn [ssize]. rewrite H.
    destruct o, o'; auto using le_enc_one.
Qed.

Lemma bytewise_enc o o' :
  (forall t, bytewise t = true -> forall v, enc_ty o t v = enc_ty o' t v) /\
  (forall fs, bytewise_fields fs = true -> forall vs, enc_fields o fs vs = enc_fields o' fs vs) /\
  (forall al, bytewise_alts al = true -> forall i v, enc_alts o al i v = enc_alts o' al i v).
Proof.
  apply schema_mutind; cbn [bytewise bytewise_fields bytewise_alts]; intros; cbn [enc_ty enc_fields enc_alts];
    auto; repeat match goal with H : _ && _ = true |- _ => apply andb_prop in H as [? ?] end.
  - f_equal. apply one_byte_enc; auto.
  - destruct v; auto. apply flat_map_ext. intros; apply one_byte_enc; auto.
  - destruct v; auto.
  - destruct v; auto. apply flat_map_ext. intros []; auto.
  - destruct v; auto. apply flat_map_ext. intros []; auto.
  - destruct v; auto.
  - destruct v; auto.
  - destruct vs; auto. f_equal; auto.
  - destruct i; auto.
Qed.

Section Bytewise.
Variables c c' : cfg.
Hypothesis Hszw : c_szw c = c_szw c'.
Hypothesis Hdmax : c_dmax c = c_dmax c'.

Lemma bytewise_valid :
  (forall t, bytewise t = true -> forall E v, valid_ty c E t v -> valid_ty c' E t v) /\
  (forall fs, bytewise_fields fs = true -> forall E vs, valid_fields c E fs vs -> valid_fields c' E fs vs) /\
  (forall al, bytewise_alts al = true -> forall E i v, valid_alts c E al i v -> valid_alts c' E al i v).
Proof.
  assert (HL : forall E l n, len_is c E l n -> len_is c' E l n).
  { intros E l n. unfold len_is. rewrite Hszw. auto. }
  assert (HB : forall b esz n, within c b esz n -> within c' b esz n).
  { intros b esz n. unfold within. rewrite Hszw, Hdmax. auto. }
  apply schema_mutind; cbn [bytewise bytewise_fields bytewise_alts].
  - intros t n H E v [H1 H2]. split; auto. unfold representable in *.
    rewrite (one_byte_enc (c_wire c') (c_wire c)); auto.
  - intros e l b H E v (xs & -> & H1 & H2 & H3). exists xs. auto 6.
  - intros fs IH H E v (vs & -> & Hv). exists vs. auto.
  - intros n fs IH H E v (xs & -> & Hn & Hv). exists xs. split; auto. split; auto.
    eapply Forall_impl; [|exact Hv]. intros x (vs & -> & Hx). eauto.
  - intros fs IH sz l b H E v (xs & -> & Hv & Hl & Hb). exists xs. split; auto. split; auto.
    eapply Forall_impl; [|exact Hv]. intros x (vs & -> & Hx). eauto.
  - intros b IH p ids H E v (args & Ha & Hv). exists args. split; auto.
    destruct (p args); auto. destruct Hv as (v' & -> & Hv). eauto.
  - intros g al IH H E v (i & v' & -> & Hs & Hv). exists i, v'. auto.
  - intros _ E [|v vs]; auto.
  - intros id t IHt k fs IHf H E [|v vs]; auto. apply andb_prop in H as [H1 H2].
    intros (A & B & C). cbn. auto.
  - intros _ E i v H. exact H.
  - intros t IHt k al IHa H E [|i] v; apply andb_prop in H as [H1 H2]; cbn; [intros [A B]|]; auto.
Qed.

Lemma bytewise_fault r :
  (forall t, bytewise t = true -> forall E bs, rfault_ty c E t bs r -> rfault_ty c' E t bs r) /\
  (forall fs, bytewise_fields fs = true -> forall E bs, rfault_fields c E fs bs r -> rfault_fields c' E fs bs r) /\
  (forall al, bytewise_alts al = true -> forall E i bs, rfault_alts c E al i bs r -> rfault_alts c' E al i bs r).
Proof.
  assert (HL : forall E l n, len_is c E l n -> len_is c' E l n).
  { intros E l n. unfold len_is. rewrite Hszw. auto. }
  assert (HB : forall b esz n, within c b esz n <-> within c' b esz n).
  { intros b esz n. unfold within. rewrite Hszw, Hdmax. tauto. }
  destruct bytewise_valid as (LV & LF & LA).
  destruct (bytewise_enc (c_wire c) (c_wire c')) as (NV & NF & NA).
  assert (HR : forall fs xs, bytewise_fields fs = true -> valid_records c fs xs ->
            valid_records c' fs xs /\ enc_records (c_wire c) fs xs = enc_records (c_wire c') fs xs).
  { intros fs xs L H. split.
    - eapply Forall_impl; [|exact H]. intros x (ws & -> & Hw). exists ws. split; auto.
      unfold valid in *. eauto.
    - unfold enc_records. apply flat_map_ext. intros []; auto. }
  apply schema_mutind; cbn [bytewise bytewise_fields bytewise_alts].
  - intros t n H E bs Hf. exact Hf.
  - intros e l b H E bs (n & Hl & Hf). exists n. split; auto. rewrite <- HB. auto.
  - intros fs IH H E bs Hf. cbn in *. auto.
  - intros n fs IH H E bs (xs & rest & Hn & Hx & -> & Hf). cbn. exists xs, rest.
    destruct (HR _ _ H Hx) as [Hx' ->]. auto.
  - intros fs IH sz l b H E bs (n & Hl & Hf). exists n. split; auto. rewrite <- HB.
    destruct Hf as [Hf|(Hw & xs & rest & Hn & Hx & -> & Hf)]; [auto|]. right. split; auto.
    exists xs, rest. destruct (HR _ _ H Hx) as [Hx' ->]. auto.
  - intros b IH p ids H E bs (args & Ha & Hp & Hf). cbn. eauto.
  - intros g al IH H E bs [[H1 H2]|(i & Hs & Hf)]; cbn; [left; auto|right; eauto].
  - intros _ E bs [].
  - intros id t IHt k fs IHf H E bs Hf. apply andb_prop in H as [H1 H2]. cbn in *.
    destruct Hf as [Hf|(v & rest & Hv & -> & Hf)]; [left; auto|right].
    exists v, rest. split; [eauto|]. split; [f_equal; auto|].
    destruct Hf as [Hf|[Hk Hf]]; auto.
  - intros _ E i bs [].
  - intros t IHt k al IHa H E [|i] bs; apply andb_prop in H as [H1 H2]; cbn; auto.
    intros [Hf|(v & rest & Hv & -> & Hf)]; [left; auto|right].
    exists v, rest. split; [eauto|]. split; [f_equal; auto|]. auto.
Qed.

Lemma bytewise_app pre gs : bytewise_fields (f_app pre gs) = bytewise_fields pre && bytewise_fields gs.
Proof. induction pre; cbn; auto. rewrite IHpre, andb_assoc. auto. Qed.

Lemma bytewise_ok fs bs vs rest : bytewise_fields fs = true -> wf fs = true -> Forall byte_ok bs ->
  rmem (struct_cast c fs) bs = (Ok vs, rest) -> rmem (struct_cast c' fs) bs = (Ok vs, rest).
Proof.
  intros B Hw Hb H. apply read_ok_iff in H as [Hv ->]; auto. apply read_ok_iff; auto.
  split; [eapply (proj1 (proj2 bytewise_valid)); eauto|].
  f_equal. apply (proj1 (proj2 (bytewise_enc (c_wire c) (c_wire c')))). auto.
Qed.

Lemma bytewise_err fs bs r id : bytewise_fields fs = true -> wf fs = true -> typed fs = true ->
  Forall byte_ok bs ->
  fst (rmem (struct_cast c fs) bs) = Err (r, id) -> fst (rmem (struct_cast c' fs) bs) = Err (r, id).
Proof.
  intros B Hw Ht Hb H.
  apply read_err_iff in H as (pre & t & k & post & vs & rest & -> & Hp & -> & Hf); auto.
  rewrite bytewise_app in B. apply andb_prop in B as [B1 B2]. cbn in B2. apply andb_prop in B2 as [B2 B3].
  apply read_err_iff; auto. exists pre, t, k, post, vs, rest. split; auto.
  split; [eapply (proj1 (proj2 bytewise_valid)); eauto|].
  split; [f_equal; apply (proj1 (proj2 (bytewise_enc (c_wire c) (c_wire c')))); auto|].
  destruct Hf as [Hf|(v & q & Hv & -> & Hf)]; [left; eapply (proj1 (bytewise_fault r)); eauto|right].
  exists v, q. split; [eapply (proj1 bytewise_valid); eauto|].
  split; [f_equal; apply (proj1 (bytewise_enc (c_wire c) (c_wire c'))); auto|auto].
Qed.

End Bytewise.

(** ** Shapes *)

Lemma Forall2_length {A B} (R : A -> B -> Prop) l m : Forall2 R l m -> length l = length m.
Proof. induction 1; simpl; auto. Qed.

Lemma shape_ct o t : forall v w, ct_ok t v -> ct_ok t w -> length (enc_ct o t v) = length (enc_ct o t w).
Proof.
  intros v w Hv Hw. rewrite !enc_ct_length; auto.
Qed.

Lemma shape_ct_seq o t l m : Forall (ct_ok t) l -> Forall (ct_ok t) m -> length l = length m ->
  length (flat_map (enc_ct o t) l) = length (flat_map (enc_ct o t) m).
Proof.
  intros Hl. revert m. induction Hl; intros [|y m] Hm Hlen; try discriminate; auto.
  inversion Hm; subst. cbn. rewrite !app_length. f_equal; [apply shape_ct; auto|].
  apply IHHl; auto.
Qed.

Lemma shape_size o :
  (forall t v w, has_ty t v -> has_ty t w -> same_shape v w -> length (enc_ty o t v) = length (enc_ty o t w)) /\
  (forall fs vs ws, has_fields fs vs -> has_fields fs ws -> Forall2 same_shape vs ws ->
     length (enc_fields o fs vs) = length (enc_fields o fs ws)) /\
  (forall al i v w, has_alt al i v -> has_alt al i w -> same_shape v w ->
     length (enc_alts o al i v) = length (enc_alts o al i w)).
Proof.
  assert (HR : forall fs, (forall vs ws, has_fields fs vs -> has_fields fs ws -> Forall2 same_shape vs ws ->
     length (enc_fields o fs vs) = length (enc_fields o fs ws)) ->
     forall l m, Forall (fun x => match x with VRec vs => has_fields fs vs | _ => False end) l ->
     Forall (fun x => match x with VRec vs => has_fields fs vs | _ => False end) m ->
     Forall2 same_shape l m ->
     length (flat_map (fun x => match x with VRec vs => enc_fields o fs vs | _ => [] end) l) =
     length (flat_map (fun x => match x with VRec vs => enc_fields o fs vs | _ => [] end) m)).
  { intros fs IH l m Hl Hm H. induction H as [|x y l m Hxy H IHl]; auto. cbn.
    inversion Hl; inversion Hm; subst. rewrite !app_length. f_equal; auto.
    destruct Hxy; auto. }
  apply schema_mutind.
  - intros t n v w Hv Hw _. cbn in *. rewrite !firstn_length. f_equal. apply shape_ct; auto.
  - intros e l b v w Hv Hw H. destruct H; try contradiction. cbn in *.
    apply shape_ct_seq; auto. eapply Forall2_length; eauto.
  - intros fs IH v w Hv Hw H. destruct H; try contradiction. cbn in *. auto.
  - intros n fs IH v w Hv Hw H. destruct H; try contradiction. cbn in *. apply HR; tauto.
  - intros fs IH sz l b v w Hv Hw H. destruct H; try contradiction. cbn in *. apply HR; tauto.
  - intros b IH p ids v w Hv Hw H. destruct H; try contradiction; cbn in *; auto.
  - intros g al IH v w Hv Hw H. destruct H; try contradiction; cbn in *; auto.
  - intros vs ws Hv Hw H. destruct H; try contradiction; auto.
  - intros id t IHt k fs IHf vs ws Hv Hw H. destruct H; try contradiction; auto.
    destruct Hv, Hw. cbn. rewrite !app_length. f_equal; auto.
  - intros i v w [].
  - intros t IHt k al IHa [|i] v w; cbn; auto.
Qed.
