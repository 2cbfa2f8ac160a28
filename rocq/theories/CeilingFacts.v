(** Ceilings that admit every [size_t] length. *)
From Coq Require Import ZifyBool ZifyNat.
From Verif Require Import Read Spec BytesFacts ProgFacts ReadFacts ReadMore ReadLemmas.

Definition roomy (c : cfg) (cs : list (Z * option Z)) : Prop :=
  Forall (fun eb => 0 < fst eb /\
                    (256 ^ Z.of_nat (c_szw c) - 1) * fst eb <= ceiling_of c (snd eb)) cs.

Definition rx {A} (p : rprog reason A) : Prop :=
  rall (fun r => r <> ExcessiveLength) (fun r => r <> ExcessiveLength) (fun _ => True)
       (fun _ => True) p.

Definition rx2 {A} (p : rprog (reason * ident) A) : Prop :=
  rall (fun r => fst r <> ExcessiveLength) (fun r => fst r <> ExcessiveLength) (fun _ => True)
       (fun _ => True) p.

Lemma roomy_allowed c b esz len cs : roomy c ((esz, b) :: cs) ->
  0 <= len < 256 ^ Z.of_nat (c_szw c) -> len_allowed (ceiling c b) esz len = true.
Proof.
  intros H Hl. inversion H as [|? ? [H1 H2] _]; subst. cbn [fst snd] in *.
  rewrite <- (Z2Nat.id len) by lia. rewrite len_allowed_of by auto. nia.
Qed.

Lemma rx_check k v : rx (rcheck k v).
Proof. unfold rcheck, rx. destruct (check k v); simpl; auto; discriminate. Qed.

Lemma rx_raw c esz len : rx (read_raw c esz len).
Proof.
  unfold read_raw, rx. destruct (c_cx c).
  - apply rall_bind; [|simpl; auto]. apply rall_rrep. simpl. repeat split; auto; discriminate.
  - simpl. repeat split; auto; discriminate.
Qed.

Lemma rx_struct c fs : rx2 (read_fields c (mk_env fs (default_fields fs)) fs) ->
  rx (rbind (rmaperr fst (read_fields c (mk_env fs (default_fields fs)) fs))
            (fun vs => RRet (VRec vs))).
Proof.
  intros H. apply rall_bind; [|simpl; auto]. apply rall_maperr.
  eapply rall_impl; [| | | |apply H]; simpl; auto.
Qed.

Lemma roomy_all c :
  (forall t e, roomy c (containers t) -> rx (read_ty c e t)) /\
  (forall fs e, roomy c (containers_fields fs) -> rx2 (read_fields c e fs)) /\
  (forall al e i, roomy c (containers_alts al) -> rx (read_alts c e al i)).
Proof.
  apply schema_mutind; cbn [read_ty read_fields read_alts containers containers_fields containers_alts].
  - intros t n e _. unfold read_fixed, rx. destruct (csize t <? n)%nat; simpl; auto.
    split; auto. split; [discriminate|]. intros bs. destruct (load _ _ _); simpl; auto.
  - intros elt l b e H. destruct (deduce_len c e l) as [len|] eqn:El; [|simpl; exact I].
    apply deduce_len_range in El. unfold read_var. rewrite (roomy_allowed _ _ _ _ _ H El).
    split; auto. apply rall_bind; [apply rx_raw|]. intros mem. destruct (sequence _); simpl; auto.
  - intros fs IH e H. apply rx_struct; auto.
  - intros n fs IH e H. apply rall_bind; [|simpl; auto]. apply rall_rrep. apply rx_struct; auto.
  - intros fs IH recsz l b e H. destruct (deduce_len c e l) as [len|] eqn:El; [|simpl; exact I].
    apply deduce_len_range in El. rewrite (roomy_allowed _ _ _ _ _ H El).
    split; auto. apply rall_bind; [|simpl; auto]. apply rall_rrep. apply rx_struct, IH.
    inversion H; auto.
  - intros b IH p ids e H. destruct (lookups e ids) as [vs|]; [|simpl; exact I].
    destruct (p vs); [|simpl; exact I]. apply rall_bind; [apply IH; auto|simpl; auto].
  - intros g al IH e H. destruct (deduce_type e g) as [[i|]|]; [|discriminate|exact I].
    apply rall_bind; [apply IH; auto|simpl; auto].
  - intros e _. simpl. exact I.
  - intros id t IHt k fs IHfs e H. apply Forall_app in H. destruct H as [H1 H2].
    apply rall_bind.
    + apply rall_maperr. apply rall_bind; [apply IHt; auto|intros; apply rx_check].
    + intros v. apply rall_bind; [apply IHfs; auto|simpl; auto].
  - intros e i _. simpl. exact I.
  - intros t IHt k al IHal e i H. apply Forall_app in H. destruct H as [H1 H2].
    destruct i; [|apply IHal; auto]. apply rall_bind; [apply IHt; auto|intros; apply rx_check].
Qed.

Lemma never_excessive c fs S alloc s r id s' ev : roomy c (containers_fields fs) ->
  rrun S alloc (struct_cast c fs) s = (Err (r, id), s', ev) -> r <> ExcessiveLength.
Proof.
  intros H Hr. destruct (roomy_all c) as (_ & Hf & _).
  destruct (rrun_all _ _ _ _ S alloc _ (Hf fs _ H) _ _ _ _ Hr) as (_ & _ & He).
  destruct (He _ eq_refl) as [[? _]|[? _]]; auto.
Qed.

Lemma no_default c fs S alloc s r id s' ev :
  c_dmax c = 256 ^ Z.of_nat (c_szw c) - 1 ->
  Forall (fun eb => eb = (1, None)) (containers_fields fs) ->
  rrun S alloc (struct_cast c fs) s = (Err (r, id), s', ev) -> r <> ExcessiveLength.
Proof.
  intros Hd H. apply never_excessive. eapply Forall_impl; [|exact H].
  intros eb ->. cbn [fst snd]. split; [lia|]. unfold ceiling_of. rewrite Hd, Z.mod_small; [lia|].
  assert (0 < 256 ^ Z.of_nat (c_szw c)) by (apply Z.pow_pos_nonneg; lia). lia.
Qed.
