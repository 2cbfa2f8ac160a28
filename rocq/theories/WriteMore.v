(** The emitted struct is well typed; layouts; nested records. *)
From Coq Require Import ZifyBool ZifyNat.
From Verif Require Import Read Write WSpec Typing PropDefs BytesFacts ProgFacts ReadFacts ReadMore Safety.
From Verif Require Import ReadLemmas LayoutFacts WriteFacts WriteMain WriteLoc WriteErr WriteRel.

Lemma slot_has G cl k t v : typed_ty G t = true -> constr_ok t k = true -> has_ty t v -> has_ty t (slot cl k t v).
Proof.
  intros Ht Hk Hv. destruct t; simpl; auto.
  assert (Hp : ct_ok t match pinned t k with Some w => w | None => v end).
  { destruct (pinned t k) eqn:E; auto. eapply pinned_ok; eauto. }
  destruct t; auto. destruct cl; auto. simpl. apply conv_in.
Qed.

Lemma emit_has c :
  (forall t G v, typed_ty G t = true -> has_ty t v -> has_ty t (emit_ty c t v)) /\
  (forall gs G cl ws, typed_fields G gs = true -> has_fields gs ws -> has_fields gs (emit_fields c cl gs ws)) /\
  (forall al G i v, typed_alts G al = true -> has_alt al i v -> has_alt al i (emit_alts c al i v)).
Proof.
  apply schema_mutind.
  - intros t n G v Ht Hv. destruct v; auto.
  - intros elt l b G v Ht Hv. destruct v; auto.
  - intros fs IH G v Ht Hv. destruct v; simpl in *; try tauto. eapply IH; eauto.
  - intros n fs IH G v Ht Hv. destruct v; cbn [typed_ty has_ty emit_ty] in *; try tauto.
    destruct Hv as [<- Hv]. rewrite map_length. split; auto. rewrite Forall_map.
    eapply Forall_impl; [|exact Hv]. intros [] Hx; try tauto. eapply IH; eauto.
  - intros fs IH recsz l b G v Ht Hv. cbn [typed_ty has_ty emit_ty] in *.
    apply andb_true_iff in Ht. destruct Ht. destruct v; try tauto. rewrite Forall_map.
    eapply Forall_impl; [|exact Hv]. intros [] Hx; try tauto. eapply IH; eauto.
  - intros b IH p ids G v Ht Hv. cbn [typed_ty] in Ht. apply andb_true_iff in Ht. destruct Ht.
    destruct v; simpl in *; try tauto. eauto.
  - intros g al IH G v Ht Hv. cbn [typed_ty] in Ht. apply andb_true_iff in Ht. destruct Ht.
    destruct v; simpl in *; try tauto. eauto.
  - intros G cl ws Ht Hv. destruct ws; simpl in *; auto.
  - intros id t IHt k gs IHgs G cl ws Ht Hv. destruct ws; simpl in Hv; [tauto|].
    cbn [typed_fields emit_fields has_fields] in *. rewrite !andb_true_iff in Ht.
    destruct Ht as [[T1 T2] T3]. destruct Hv. split; [|eauto]. eapply slot_has; eauto.
  - auto.
  - intros t IHt k al IHal G i v Ht Hv. cbn [typed_alts] in *. rewrite !andb_true_iff in Ht.
    destruct Ht as [[[_ T1] T2] T3]. destruct i; simpl in *; eauto.
Qed.

Lemma emitted_has c fs vs : typed fs = true -> has_fields fs vs -> has_fields fs (emitted c fs vs).
Proof. intros. eapply emit_has; eauto. Qed.

Lemma nth_emitted c fs vs pre id t k v : field_at fs vs pre id t k v ->
  nth (f_len pre) (emitted c fs vs) VNone =
  slot (hd_error (claims c id fs vs)) k t (emit_ty c t v).
Proof.
  intros Hat.
  destruct (emitted_split c fs vs pre id _ k v Hat) as (p2 & v2 & v3 & _ & E3 & L3 & Hem).
  rewrite Hem, app_nth2; rewrite emit_fields_length by auto; [|lia].
  rewrite Nat.sub_diag. auto.
Qed.

(** ** Scalars on the wire (C14) *)

Lemma scalars_enc' o t v s l : has_ty t v -> scalars_of t v = Some (s, l) ->
  enc_ty o t v = flat_map (wire_scalar o s) l.
Proof.
  destruct t; simpl; intros Hv Hs; try discriminate.
  - destruct (Nat.eqb_spec n (csize t)); [|discriminate].
    destruct (leaf t) as [s0|] eqn:El; simpl in Hs; [|discriminate]. inversion Hs; subst.
    rewrite firstn_all2 by (rewrite enc_ct_length; auto). apply enc_ct_flatten; auto.
  - destruct v; try tauto.
    destruct (leaf elt) as [s0|] eqn:El; simpl in Hs; [|discriminate]. inversion Hs; subst.
    clear Hs. induction Hv; simpl; auto. rewrite flat_map_app. f_equal; auto.
    apply enc_ct_flatten; auto.
Qed.

Lemma write_scalar_bytes c fs vs pre id t k v out s l : wf fs = true -> typed fs = true ->
  has_fields fs vs -> field_at fs vs pre id t k v ->
  wmem (stream_cast c fs vs) = (Ok tt, out) ->
  scalars_of t (nth (f_len pre) (emitted c fs vs) VNone) = Some (s, l) ->
  exists bs rest, out = bytes_before c pre (emitted c fs vs) ++ bs ++ rest /\
    length bs = (length l * ssize s)%nat /\
    forall j i, (j < length l)%nat -> (i < ssize s)%nat ->
      nth (j * ssize s + byte_pos (c_wire c) (ssize s) i) bs 0 =
      (nth j l 0 / 256 ^ Z.of_nat i) mod 256.
Proof.
  intros Hw Ht Hv Hat Hok Hs.
  destruct (ok_at _ _ _ _ _ _ _ _ _ Hw Ht Hv Hat Hok) as (part & rest & Hf & He & ->).
  destruct (at_facts fs vs pre id _ k v Hw Ht Hv Hat)
    as (post & vpre & vpost & E1 & E2 & L & V1 & V2 & V3 & W1 & W2 & W3 & T1 & T2 & T4 & T3 & Hx & Hm & Hsb & Hl).
  rewrite (nth_emitted _ _ _ _ _ _ _ _ Hat) in Hs.
  exists part, rest. split; auto. rewrite He.
  rewrite (scalars_enc' (c_wire c) t _ s l); auto.
  - split; [|intros j i; apply flat_wire_nth].
    clear. induction l; simpl; auto. rewrite app_length, IHl, wire_scalar_length. lia.
  - eapply slot_has; eauto. eapply emit_has; eauto.
Qed.

(** ** Fixed layouts (C35) *)

Lemma layout_length' o :
  (forall t, forall seen v n, wf_ty seen t = true -> has_ty t v -> layout t = Some n ->
     length (enc_ty o t v) = n) /\
  (forall fs, forall seen vs n, wf_fields seen fs = true -> has_fields fs vs -> layout_fields fs = Some n ->
     length (enc_fields o fs vs) = n) /\
  (forall al : alts, True).
Proof.
  apply schema_mutind; auto; try (intros; simpl in *; discriminate).
  - intros t n seen v m Hw Hv Hl. cbn [wf_ty has_ty layout enc_ty] in *. inversion Hl; subst.
    apply andb_true_iff in Hw. rewrite firstn_length, enc_ct_length by auto. destruct t; simpl in *; lia.
  - intros fs IH seen v n Hw Hv Hl. destruct v; simpl in Hv; try tauto. simpl. eapply IH; eauto.
  - intros k fs IH seen v n Hw Hv Hl. cbn [wf_ty has_ty layout] in *. destruct v; try tauto.
    destruct (layout_fields fs) as [m|]; [|discriminate]. inversion Hl; subst. destruct Hv as [<- Hv].
    cbn [enc_ty]. clear Hl. induction Hv; simpl; auto. rewrite app_length. f_equal; auto.
    destruct x; try tauto. eapply IH; eauto.
  - intros seen [|] n; simpl; intros _ H Hl; try tauto. inversion Hl. auto.
  - intros id t IHt k fs IHfs seen [|v vs] n Hw Hv Hl; cbn [wf_fields has_fields layout_fields enc_fields] in *; try tauto.
    rewrite !andb_true_iff in Hw. destruct (layout t); [|discriminate].
    destruct (layout_fields fs); [|discriminate]. inversion Hl; subst. rewrite app_length.
    destruct Hw as [[_ W1] W2]. destruct Hv. rewrite (IHt _ _ _ W1 H eq_refl), (IHfs _ _ _ W2 H0 eq_refl). auto.
Qed.

Lemma layout_write c fs n vs out : wf fs = true -> typed fs = true -> has_fields fs vs ->
  layout_fields fs = Some n -> wmem (stream_cast c fs vs) = (Ok tt, out) -> length out = n.
Proof.
  intros Hw Ht Hv Hl Hok. pose proof (stream_cast_good c True fs vs Hw Ht (or_intror I) Hv) as G.
  rewrite Hok in G. unfold good in G. simpl in G. subst out.
  destruct (layout_length' (c_wire c)) as (_ & Hf & _). eapply Hf; eauto. apply emitted_has; auto.
Qed.

(** ** Nested records (C36) *)

Lemma write_each_prog c gs wss :
  wmem (wfor (map VRec wss) (fun x => match x with
                                      | VRec ws => wmaperr fst (write_fields c gs ws gs ws)
                                      | _ => WStuck
                                      end)) =
  match write_each c gs wss with
  | (Ok a, out) => (Ok a, out)
  | (Err e, out) => (Err (fst e), out)
  | (UB, out) => (UB, out)
  | (Stuck, out) => (Stuck, out)
  | (Throw, out) => (Throw, out)
  end.
Proof.
  induction wss as [|ws wss IH]; auto. cbn [map wfor write_each]. rewrite wmem_bind, wmem_maperr.
  fold (stream_cast c gs ws). destruct (wmem (stream_cast c gs ws)) as [[[]|e| | |] out]; auto.
  rewrite IH. destruct (write_each c gs wss) as [[[]|e| | |] out']; auto.
Qed.

Lemma sequence_recs l wss :
  sequence (map (fun x => match x with VRec ws => Some ws | _ => None end) l) = Some wss ->
  l = map VRec wss.
Proof.
  revert wss. induction l as [|x l IH]; intros wss H; simpl in H.
  - inversion H; auto.
  - destruct x; try discriminate. destruct (sequence _) as [r|]; [|discriminate]. inversion H; subst.
    simpl. f_equal. auto.
Qed.

Lemma records_prog c fs vs pre id t k v gs wss : wf fs = true -> typed fs = true ->
  has_fields fs vs -> field_at fs vs pre id t k v -> records_of t v = Some (gs, wss) ->
  holds k v -> counted c (mk_env fs vs) t v ->
  wmem (field_prog c fs vs id t k v) =
  match write_each c gs wss with
  | (Ok a, out) => (Ok a, out)
  | (Err e, out) => (Err (fst e), out)
  | (UB, out) => (UB, out)
  | (Stuck, out) => (Stuck, out)
  | (Throw, out) => (Throw, out)
  end.
Proof.
  intros Hw Ht Hv Hat Hr Hk Hc.
  rewrite (other_prog c _ _ _ _ _ _ _ Hw Ht Hv Hat) by (intros t' n ->; destruct v; discriminate).
  rewrite (wcheck_holds _ _ Hk). cbn [wbind].
  destruct (at_facts fs vs pre id _ k v Hw Ht Hv Hat)
    as (_ & _ & _ & _ & _ & _ & _ & V2 & _).
  destruct t; try discriminate; destruct v; try discriminate; cbn [records_of write_ty has_ty] in *.
  - inversion Hr; subst. rewrite wmem_maperr. simpl. fold (stream_cast c gs l).
    destruct (wmem (stream_cast c gs l)) as [[[]|e| | |] out]; auto. rewrite app_nil_r. auto.
  - destruct (sequence _) as [w|] eqn:Es; [|discriminate]. inversion Hr; subst.
    destruct V2 as [<- _]. rewrite Nat.eqb_refl. rewrite (sequence_recs _ _ Es). apply write_each_prog.
  - destruct (sequence _) as [w|] eqn:Es; [|discriminate]. inversion Hr; subst.
    assert (verify_len c (mk_env fs vs) l (Z.of_nat (length l0)) = WRet tt) as ->.
    { destruct l; auto. simpl in *. destruct Hc as (args & -> & ->). rewrite Z.eqb_refl. auto. }
    cbn [wbind]. rewrite (sequence_recs _ _ Es). apply write_each_prog.
Qed.

Lemma records_write c fs vs pre id t k v gs wss : wf fs = true -> typed fs = true ->
  has_fields fs vs -> field_at fs vs pre id t k v -> records_of t v = Some (gs, wss) ->
  holds k v -> counted c (mk_env fs vs) t v ->
  match write_each c gs wss with
  | (Err (r, _), part) => fails_with c fs vs pre id r part
  | (Ok _, part) =>
      (forall r out, wmem (stream_cast c fs vs) <> (Err (r, id), out)) /\
      (forall out, wmem (stream_cast c fs vs) = (Ok tt, out) ->
         exists rest, out = bytes_before c pre (emitted c fs vs) ++ part ++ rest)
  | _ => fst (wmem (stream_cast c fs vs)) <> Ok tt
  end.
Proof.
  intros Hw Ht Hv Hat Hr Hk Hc.
  pose proof (records_prog c _ _ _ _ _ _ _ _ _ Hw Ht Hv Hat Hr Hk Hc) as Hp.
  destruct (write_each c gs wss) as [[[]|[r i]| | |] part].
  - split.
    + intros r out He. destruct (err_at _ _ _ _ _ _ _ _ _ _ Hw Ht Hv Hat He) as (p & Hf & _). congruence.
    + intros out Ho. destruct (ok_at _ _ _ _ _ _ _ _ _ Hw Ht Hv Hat Ho) as (p & rest & Hf & _ & ->).
      rewrite Hp in Hf. inversion Hf; subst. eauto.
  - eapply field_fails; eauto.
  - intros Ho. destruct (wmem (stream_cast c fs vs)) as [o out] eqn:E. simpl in Ho. subst o.
    destruct (ok_at _ _ _ _ _ _ _ _ _ Hw Ht Hv Hat E) as (p & rest & Hf & _). congruence.
  - intros Ho. destruct (wmem (stream_cast c fs vs)) as [o out] eqn:E. simpl in Ho. subst o.
    destruct (ok_at _ _ _ _ _ _ _ _ _ Hw Ht Hv Hat E) as (p & rest & Hf & _). congruence.
  - intros Ho. destruct (wmem (stream_cast c fs vs)) as [o out] eqn:E. simpl in Ho. subst o.
    destruct (ok_at _ _ _ _ _ _ _ _ _ Hw Ht Hv Hat E) as (p & rest & Hf & _). congruence.
Qed.
