(** Byte positions, fixed layouts, repeated records. *)
From Coq Require Import ZifyBool ZifyNat.
From Verif Require Import Read Spec PropDefs BytesFacts ProgFacts ReadFacts ReadMore ReadLemmas.

(** ** Bytes of scalars (C14) *)

Lemma le_enc_nth w : forall z i, (i < w)%nat -> nth i (le_enc w z) 0 = (z / 256 ^ Z.of_nat i) mod 256.
Proof.
  induction w; intros z i Hi; [lia|]. destruct i; simpl.
  - change (256 ^ Z.of_nat 0) with 1. rewrite Z.div_1_r. auto.
  - rewrite IHw by lia. f_equal. rewrite Z.div_div by lia. f_equal.
    rewrite <- Z.pow_succ_r by lia. f_equal. lia.
Qed.

Lemma wire_scalar_nth o s z i : (i < ssize s)%nat ->
  nth (byte_pos o (ssize s) i) (wire_scalar o s z) 0 = (z / 256 ^ Z.of_nat i) mod 256.
Proof.
  intros Hi. unfold wire_scalar, sc_bits. rewrite le_enc_mod. destruct o; simpl.
  - apply le_enc_nth; auto.
  - rewrite rev_nth; rewrite le_enc_length; [|lia].
    rewrite <- (le_enc_nth (ssize s)) by auto. f_equal. lia.
Qed.

Lemma enc_ct_flatten o s t : leaf t = Some s -> forall v, ct_ok t v ->
  enc_ct o t v = flat_map (wire_scalar o s) (flatten t v).
Proof.
  induction t; simpl; intros Hl v Hv; try discriminate.
  - destruct v; simpl in Hv; try tauto. inversion Hl; subst. simpl. rewrite app_nil_r. auto.
  - destruct v as [|l| | | | |]; simpl in Hv; try tauto. destruct Hv as [_ Hv]. simpl.
    clear n. induction Hv; simpl; auto. rewrite flat_map_app. f_equal; auto.
  - destruct v; simpl in Hv; try tauto. inversion Hl; subst. simpl. rewrite app_nil_r. auto.
Qed.

Lemma flat_map_nth {A} (f : A -> list Z) w d l : (forall x, length (f x) = w) ->
  forall j i, (j < length l)%nat -> (i < w)%nat ->
  nth (j * w + i) (flat_map f l) 0 = nth i (f (nth j l d)) 0.
Proof.
  intros Hf. induction l; intros j i Hj Hi; simpl in *; [lia|]. destruct j.
  - simpl. apply app_nth1. rewrite Hf. auto.
  - rewrite app_nth2; rewrite Hf; [|simpl; lia].
    replace (S j * w + i - w)%nat with (j * w + i)%nat by (simpl; lia). apply IHl; lia.
Qed.

Lemma byte_pos_lt o w i : (i < w)%nat -> (byte_pos o w i < w)%nat.
Proof. destruct o; simpl; lia. Qed.

Lemma wire_scalar_length o s z : length (wire_scalar o s z) = ssize s.
Proof. rewrite wire_scalar_enc. apply wire_enc_length. Qed.

Lemma flat_wire_nth o s l j i : (j < length l)%nat -> (i < ssize s)%nat ->
  nth (j * ssize s + byte_pos o (ssize s) i) (flat_map (wire_scalar o s) l) 0 =
  (nth j l 0 / 256 ^ Z.of_nat i) mod 256.
Proof.
  intros Hj Hi. rewrite (flat_map_nth _ (ssize s) 0); auto.
  - apply wire_scalar_nth; auto.
  - apply wire_scalar_length.
  - apply byte_pos_lt; auto.
Qed.

(** What a field consumes, inside any schema. *)
Lemma read_split c pre id t k post bs ws rest :
  wf (f_app pre (FCons id t k post)) = true -> Forall byte_ok bs ->
  rmem (struct_cast c (f_app pre (FCons id t k post))) bs = (Ok ws, rest) ->
  exists vs v us, ws = vs ++ v :: us /\ length vs = f_len pre /\
    bs = enc_fields (c_wire c) pre vs ++ enc_ty (c_wire c) t v ++
         enc_fields (c_wire c) post us ++ rest /\
    valid_ty c (mk_env (f_app pre (FCons id t k post)) ws) t v /\ holds k v.
Proof.
  intros Hwf Hb H. apply struct_cast_correct in H; auto. destruct H as [Hv ->].
  unfold valid in Hv. set (E := mk_env _ _) in Hv |- *. clearbody E. clear Hb Hwf. revert ws Hv.
  induction pre; intros ws Hv.
  - destruct ws as [|v us]; simpl in Hv; [tauto|]. destruct Hv as (H1 & H2 & H3).
    exists [], v, us. simpl. rewrite <- !app_assoc. auto.
  - destruct ws as [|w ws]; simpl in Hv; [tauto|]. destruct Hv as (H1 & H2 & H3).
    destruct (IHpre _ H3) as (vs & v & us & -> & G2 & G3 & G4).
    exists (w :: vs), v, us. simpl. rewrite <- !app_assoc, G3. auto.
Qed.

Lemma scalars_enc c E t v s l : valid_ty c E t v -> scalars_of t v = Some (s, l) ->
  enc_ty (c_wire c) t v = flat_map (wire_scalar (c_wire c) s) l.
Proof.
  destruct t; simpl; intros Hv Hs; try discriminate.
  - destruct (Nat.eqb_spec n (csize t)); [|discriminate]. destruct Hv as [Hv _].
    destruct (leaf t) as [s0|] eqn:El; simpl in Hs; [|discriminate]. inversion Hs; subst.
    rewrite firstn_all2 by (rewrite enc_ct_length; auto). apply enc_ct_flatten; auto.
  - destruct Hv as (xs & -> & Hv & _).
    destruct (leaf elt) as [s0|] eqn:El; simpl in Hs; [|discriminate]. inversion Hs; subst.
    clear Hs. induction Hv; simpl; auto. rewrite flat_map_app. f_equal; auto.
    apply enc_ct_flatten; auto.
Qed.

Lemma read_scalar_bytes c pre id t k post bs ws rest :
  wf (f_app pre (FCons id t k post)) = true -> Forall byte_ok bs ->
  rmem (struct_cast c (f_app pre (FCons id t k post))) bs = (Ok ws, rest) ->
  exists vs v us b1 b2 b3, ws = vs ++ v :: us /\ length vs = f_len pre /\
    bs = b1 ++ b2 ++ b3 ++ rest /\
    b1 = enc_fields (c_wire c) pre vs /\
    forall s l, scalars_of t v = Some (s, l) ->
      length b2 = (length l * ssize s)%nat /\
      forall j i, (j < length l)%nat -> (i < ssize s)%nat ->
        nth (j * ssize s + byte_pos (c_wire c) (ssize s) i) b2 0 =
        (nth j l 0 / 256 ^ Z.of_nat i) mod 256.
Proof.
  intros Hwf Hb H. destruct (read_split _ _ _ _ _ _ _ _ _ Hwf Hb H)
    as (vs & v & us & Hw & Hl & He & Hv & _).
  do 6 eexists. split; [exact Hw|]. split; [exact Hl|]. split; [exact He|]. split; [reflexivity|].
  intros s l Hs. rewrite (scalars_enc _ _ _ _ _ _ Hv Hs). split.
  - clear. induction l; simpl; auto. rewrite app_length, IHl, wire_scalar_length. lia.
  - intros j i. apply flat_wire_nth.
Qed.

(** ** Fixed layouts (C35) *)

Lemma layout_length c :
  (forall t, forall seen E v n, wf_ty seen t = true -> valid_ty c E t v -> layout t = Some n ->
     length (enc_ty (c_wire c) t v) = n) /\
  (forall fs, forall seen E vs n, wf_fields seen fs = true -> valid_fields c E fs vs -> layout_fields fs = Some n ->
     length (enc_fields (c_wire c) fs vs) = n) /\
  (forall al : alts, True).
Proof.
  apply schema_mutind; auto; try (simpl; intros; discriminate).
  - intros t n seen E v m Hw [Hv _] Hl. simpl in *. inversion Hl; subst.
    apply firstn_length_le. rewrite enc_ct_length by auto.
    apply andb_true_iff in Hw. destruct Hw as [_ Hw]. destruct t; lia.
  - intros fs IH seen E v n Hw (vs & -> & Hv) Hl. simpl in *. eauto.
  - intros n fs IH seen E v m Hw (xs & -> & Hn & Hv) Hl. simpl in *.
    destruct (layout_fields fs) as [w|]; [|discriminate]. inversion Hl; subst.
    clear Hl. induction Hv; simpl; auto. rewrite app_length, IHHv.
    destruct H as (vs & -> & Hx). erewrite IH; eauto.
  - intros seen E [|] n _ Hv Hl; simpl in *; [|tauto]. inversion Hl; auto.
  - intros id t IHt k fs IHfs seen E [|v vs] n Hw Hv Hl; simpl in *; [tauto|].
    apply andb_true_iff in Hw. destruct Hw as [Hw H3]. apply andb_true_iff in Hw.
    destruct Hw as [_ H2]. destruct Hv as (G1 & _ & G2).
    destruct (layout t) as [a|]; [|discriminate]. destruct (layout_fields fs) as [b|]; [|discriminate].
    inversion Hl; subst. rewrite app_length. erewrite IHt, IHfs; eauto.
Qed.

Lemma layout_containers :
  (forall t n, layout t = Some n -> containers t = []) /\
  (forall fs n, layout_fields fs = Some n -> containers_fields fs = []) /\
  (forall al : alts, True).
Proof.
  apply schema_mutind; auto; try (simpl; intros; discriminate).
  - intros n fs IH m. simpl. destruct (layout_fields fs); [|discriminate]. eauto.
  - intros id t IHt k fs IHfs n. simpl.
    destruct (layout t) as [a|]; [|discriminate]. destruct (layout_fields fs) as [b|]; [|discriminate].
    intros _. rewrite (IHt a), (IHfs b); auto.
Qed.

Lemma layout_read c fs n bs vs rest : wf fs = true -> Forall byte_ok bs ->
  layout_fields fs = Some n -> rmem (struct_cast c fs) bs = (Ok vs, rest) ->
  length bs = (n + length rest)%nat.
Proof.
  intros Hwf Hb Hl H. apply struct_cast_correct in H; auto. destruct H as [Hv ->].
  rewrite app_length. f_equal. destruct (layout_length c) as (_ & Hf & _). eapply Hf; eauto.
Qed.

Lemma layout_no_alloc c fs n S alloc s o s' ev : wf fs = true ->
  layout_fields fs = Some n -> rrun S alloc (struct_cast c fs) s = (o, s', ev) ->
  forall m, ~ In (EvAlloc m) ev.
Proof.
  intros Hwf Hl Hr m Hin. destruct layout_containers as (_ & Hc & _).
  destruct (rrun_all _ _ _ _ S alloc _ (struct_cast_all c fs Hwf) _ _ _ _ Hr) as (_ & Ha & _).
  apply Ha in Hin. destruct Hin as (esz & b & len & Hin & _). rewrite (Hc _ _ Hl) in Hin. auto.
Qed.

(** ** Repeated records (C36) *)

Lemma rrun_many c fs S alloc n : forall s,
  rrun S alloc (rrep n (rbind (rmaperr fst (struct_cast c fs)) (fun vs => RRet (VRec vs)))) s =
  match cast_many c fs S alloc n s with
  | (Ok l, s', ev) => (Ok l, s', ev)
  | (Err e, s', ev) => (Err (fst e), s', ev)
  | (UB, s', ev) => (UB, s', ev)
  | (Stuck, s', ev) => (Stuck, s', ev)
  | (Throw, s', ev) => (Throw, s', ev)
  end.
Proof.
  induction n; intros s; [reflexivity|]. cbn [rrep cast_many].
  set (q := rrep n _) in *. rewrite !rrun_bind, rrun_maperr.
  destruct (rrun S alloc (struct_cast c fs) s) as [[[v|r0| | |] s1] ev1]; auto.
  cbn [rrun]. rewrite app_nil_r, rrun_bind, IHn.
  destruct (cast_many c fs S alloc n s1) as [[[v1|r1| | |] s2] ev2]; auto.
  simpl. rewrite app_nil_r. auto.
Qed.

Lemma array_read c S alloc pre id n fs s vs s1 ev1 :
  wf (f_app pre (FCons id (FArrRec n fs) CNone FNil)) = true ->
  rrun S alloc (struct_cast c pre) s = (Ok vs, s1, ev1) ->
  rrun S alloc (struct_cast c (f_app pre (FCons id (FArrRec n fs) CNone FNil))) s =
  match cast_many c fs S alloc n s1 with
  | (o, s2, ev2) => (nested id VSeq vs o, s2, ev1 ++ ev2)
  end.
Proof.
  intros Hwf H1. rewrite (rrun_last_field _ _ _ _ _ _ _ _ _ _ _ Hwf H1).
  rewrite rrun_check_none. cbn [read_ty]. fold (struct_cast c fs).
  rewrite rrun_bind, rrun_many.
  destruct (cast_many c fs S alloc n s1) as [[[v|r0| | |] s2] ev2]; auto.
  simpl. rewrite app_nil_r. auto.
Qed.

Lemma vector_read c S alloc pre id fs recsz l b s vs s1 ev1 n :
  wf (f_app pre (FCons id (FVecRec fs recsz l b) CNone FNil)) = true ->
  rrun S alloc (struct_cast c pre) s = (Ok vs, s1, ev1) ->
  len_is c (mk_env pre vs) l n -> within c b recsz n ->
  rrun S alloc (struct_cast c (f_app pre (FCons id (FVecRec fs recsz l b) CNone FNil))) s =
  if alloc (Z.of_nat n * recsz) then
    match cast_many c fs S alloc n s1 with
    | (o, s2, ev2) => (nested id VSeq vs o, s2, ev1 ++ EvAlloc (Z.of_nat n * recsz) :: ev2)
    end
  else (Throw, s1, ev1 ++ [EvAlloc (Z.of_nat n * recsz)]).
Proof.
  intros Hwf H1 Hl Hw. rewrite (rrun_last_field _ _ _ _ _ _ _ _ _ _ _ Hwf H1).
  destruct (wf_field _ _ _ _ _ Hwf) as [seen Ht].
  cbn [wf_ty] in Ht. apply andb_true_iff in Ht. destruct Ht as [Ht _].
  apply andb_true_iff in Ht. destruct Ht as [_ Ht]. apply Z.ltb_lt in Ht.
  rewrite rrun_check_none. cbn [read_ty]. fold (struct_cast c fs).
  rewrite (deduce_len_complete _ _ _ _ Hl).
  apply (len_allowed_iff c b recsz n Ht) in Hw. rewrite Hw. cbn [rrun].
  destruct (alloc (Z.of_nat n * recsz)); [|auto].
  rewrite Nat2Z.id, rrun_bind, rrun_many.
  destruct (cast_many c fs S alloc n s1) as [[[v|r0| | |] s2] ev2]; auto.
  simpl. rewrite app_nil_r. auto.
Qed.

Lemma record_read' c S alloc pre id fs s vs s1 ev1 :
  wf (f_app pre (FCons id (FStruct fs) CNone FNil)) = true ->
  rrun S alloc (struct_cast c pre) s = (Ok vs, s1, ev1) ->
  rrun S alloc (struct_cast c (f_app pre (FCons id (FStruct fs) CNone FNil))) s =
  match rrun S alloc (struct_cast c fs) s1 with
  | (o, s2, ev2) => (nested id VRec vs o, s2, ev1 ++ ev2)
  end.
Proof.
  intros Hwf H1. rewrite (record_read _ _ _ _ _ _ _ _ _ _ Hwf H1).
  destruct (rrun S alloc (struct_cast c fs) s1) as [[[v|r0| | |] s2] ev2]; auto.
Qed.
