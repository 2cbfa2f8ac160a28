(** The host's byte order and the constexpr path do not affect what is read. *)
From Coq Require Import ZifyBool ZifyNat.
From Verif Require Import Read Spec PropDefs BytesFacts ProgFacts ReadFacts ReadMore.

Definition rsim {E A} (p q : rprog E A) : Prop := forall bs, Forall byte_ok bs ->
  fst (rmem p bs) = fst (rmem q bs) /\
  (forall a, fst (rmem p bs) = Ok a -> snd (rmem p bs) = snd (rmem q bs)).

Lemma rsim_refl {E A} (p : rprog E A) : rsim p p.
Proof. intros bs _. auto. Qed.

Lemma rsim_bind {E A B} (p q : rprog E A) (f g : A -> rprog E B) :
  rsim p q -> (forall a, rsim (f a) (g a)) -> rsim (rbind p f) (rbind q g).
Proof.
  intros H Hf bs Hb. rewrite !rmem_bind. destruct (H bs Hb) as [H1 H2].
  destruct (rmem p bs) as [o r] eqn:Ep, (rmem q bs) as [o' r'] eqn:Eq. simpl in *. subst o'.
  destruct o; simpl; try (split; [auto|intros; congruence]).
  rewrite <- (H2 a eq_refl). apply Hf. eapply rmem_bytes; eauto.
Qed.

Lemma rsim_maperr {E E' A} (g : E -> E') (p q : rprog E A) :
  rsim p q -> rsim (rmaperr g p) (rmaperr g q).
Proof.
  intros H bs Hb. rewrite !rmem_maperr. destruct (H bs Hb) as [H1 H2].
  destruct (rmem p bs) as [o r], (rmem q bs) as [o' r']. simpl in *. subst o'.
  destruct o; simpl; split; auto; intros; try discriminate. eauto.
Qed.

Lemma rsim_rrep {E A} n (p q : rprog E A) : rsim p q -> rsim (rrep n p) (rrep n q).
Proof.
  intros H. induction n; simpl; [apply rsim_refl|].
  apply rsim_bind; auto. intros a. apply rsim_bind; auto. intros; apply rsim_refl.
Qed.

Lemma load_same c c' t mem : c_wire c = c_wire c' -> ct_wf t = true ->
  Forall byte_ok mem -> length mem = csize t -> load c t mem = load c' t mem.
Proof.
  intros Hw Hwf Hb Hl. destruct (load c t mem) as [v|] eqn:E.
  - apply load_iff in E; auto. rewrite Hw in E. symmetry. apply load_iff; auto.
  - destruct (load c' t mem) as [v|] eqn:E'; auto.
    apply load_iff in E'; auto. rewrite <- Hw in E'. apply load_iff in E'; auto. congruence.
Qed.

Lemma rsim_read {E A} n (e : E) (k k' : list Z -> rprog E A) : 0 <= n ->
  (forall bs, Forall byte_ok bs -> Z.of_nat (length bs) = n -> rsim (k bs) (k' bs)) ->
  rsim (RRead n e k) (RRead n e k').
Proof.
  intros Hn Hk bs Hb. simpl. destruct (Z.leb_spec n (Z.of_nat (length bs))).
  - apply Hk; auto using Forall_firstn, Forall_skipn. rewrite firstn_length. lia.
  - simpl. split; auto.
Qed.

Lemma fixed_sim c c' t n : c_wire c = c_wire c' -> ct_wf t = true ->
  rsim (read_fixed c t n) (read_fixed c' t n).
Proof.
  intros Hw Hwf. unfold read_fixed. destruct (Nat.ltb_spec (csize t) n); [apply rsim_refl|].
  apply rsim_read; [lia|]. intros bs Hb Hl.
  rewrite (load_same c c'); auto.
  - apply rsim_refl.
  - apply overlay_bytes; auto.
  - rewrite overlay_length; lia.
Qed.

Lemma raw_outcome c esz len bs : 0 <= esz ->
  (exists mem r, rmem (read_raw c esz len) bs = (Ok mem, r)) \/
  fst (rmem (read_raw c esz len) bs) = Err BufferExhaustion.
Proof.
  intros He. unfold read_raw. destruct (c_cx c).
  - assert (H : forall n bs, (exists chs r,
        rmem (rrep n (RRead esz BufferExhaustion (fun bs => RRet bs))) bs = (Ok chs, r)) \/
        fst (rmem (rrep n (RRead esz BufferExhaustion (fun bs => RRet bs))) bs) = Err BufferExhaustion).
    { induction n; intros bs'; simpl; [left; eauto|].
      destruct (esz <=? Z.of_nat (length bs')); auto.
      rewrite rmem_bind. destruct (IHn (skipn (Z.to_nat esz) bs')) as [(chs & r & Hr)|Hr].
      - rewrite Hr. simpl. left; eauto.
      - destruct (rmem _ _) as [o r]. simpl in Hr. subst. auto. }
    rewrite rmem_bind. destruct (H (Z.to_nat len) bs) as [(chs & r & Hr)|Hr].
    + rewrite Hr. simpl. left; eauto.
    + destruct (rmem _ _) as [o r]. simpl in Hr. subst. auto.
  - simpl. destruct (_ <=? _); simpl; eauto.
Qed.

Lemma raw_sim c c' esz len : c_szw c = c_szw c' -> 0 <= esz -> 0 <= len ->
  len * esz < pow256 (c_szw c) ->
  rsim (read_raw c esz len) (read_raw c' esz len).
Proof.
  intros Hs He Hl Hf bs Hb.
  assert (Hf' : len * esz < pow256 (c_szw c')) by (rewrite <- Hs; auto).
  pose proof (parses_raw c esz len He Hl Hf bs) as P1.
  pose proof (parses_raw c' esz len He Hl Hf' bs) as P2.
  destruct (raw_outcome c esz len bs He) as [(m & r & H1)|H1],
           (raw_outcome c' esz len bs He) as [(m' & r' & H2)|H2].
  - assert (H1' := H1). apply P1 in H1'; auto. apply P2 in H1'; auto.
    rewrite H1' in *. rewrite H1. auto.
  - apply P1 in H1; auto. apply P2 in H1; auto. rewrite H1 in H2. discriminate.
  - apply P2 in H2; auto. apply P1 in H2; auto. rewrite H2 in H1. discriminate.
  - rewrite H1, H2. split; auto. intros; discriminate.
Qed.

(** Weaker simulation for continuations that only matter on results of the first
    program. *)
Lemma rsim_bind_on {E A B} (p q : rprog E A) (f g : A -> rprog E B) (P : A -> Prop) :
  rsim p q -> (forall bs a r, Forall byte_ok bs -> rmem p bs = (Ok a, r) -> P a) ->
  (forall a, P a -> rsim (f a) (g a)) -> rsim (rbind p f) (rbind q g).
Proof.
  intros H HP Hf bs Hb. rewrite !rmem_bind. destruct (H bs Hb) as [H1 H2].
  destruct (rmem p bs) as [o r] eqn:Ep, (rmem q bs) as [o' r'] eqn:Eq. simpl in *. subst o'.
  destruct o; simpl; try (split; [auto|intros; congruence]).
  rewrite <- (H2 a eq_refl). apply Hf; [eapply HP; eauto|]. eapply rmem_bytes; eauto.
Qed.

Lemma var_sim c c' elt len b : same_build c c' -> ct_wf elt = true -> 0 <= len ->
  rsim (read_var c elt len b) (read_var c' elt len b).
Proof.
  intros (Hw & Hs & Hd) Hwf Hl. unfold read_var.
  pose proof (csize_pos _ Hwf) as Hpos.
  assert (Hc : ceiling c b = ceiling c' b) by (unfold ceiling, to_size; rewrite Hs, Hd; auto).
  rewrite <- Hc. destruct (len_allowed _ _ _) eqn:Ea; [|apply rsim_refl].
  pose proof (len_allowed_fits c b (Z.of_nat (csize elt)) len ltac:(lia) Hl Ea) as Hfit.
  intros bs Hb. cbn [rmem]. revert bs Hb.
  apply rsim_bind_on with
    (P := fun mem => Forall byte_ok mem /\ length mem = (Z.to_nat len * csize elt)%nat).
  - apply raw_sim; auto; lia.
  - intros bs mem r Hb H. apply parses_raw in H; auto; try lia. destruct H as [H ->].
    apply Forall_app in Hb. split; [tauto|nia].
  - intros mem [Hb Hm].
    replace (map (load c' elt) (chunks (csize elt) (Z.to_nat len) mem))
       with (map (load c elt) (chunks (csize elt) (Z.to_nat len) mem)); [apply rsim_refl|].
    apply map_ext_in. intros ch Hin.
    pose proof (chunks_Forall _ _ _ Hm Hb) as Hf. rewrite Forall_forall in Hf.
    destruct (Hf ch Hin). apply load_same; auto.
Qed.

Definition sim_ty (t : fty) : Prop := forall c c' seen e, same_build c c' ->
  wf_ty seen t = true -> rsim (read_ty c e t) (read_ty c' e t).
Definition sim_fields (fs : fields) : Prop := forall c c' seen e, same_build c c' ->
  wf_fields seen fs = true -> rsim (read_fields c e fs) (read_fields c' e fs).
Definition sim_alts (al : alts) : Prop := forall c c' seen e i, same_build c c' ->
  wf_alts seen al = true -> rsim (read_alts c e al i) (read_alts c' e al i).

Lemma sim_struct fs : sim_fields fs -> forall c c', same_build c c' ->
  wf_fields [] fs = true ->
  rsim (rbind (rmaperr fst (read_fields c (mk_env fs (default_fields fs)) fs))
              (fun vs => RRet (VRec vs)))
       (rbind (rmaperr fst (read_fields c' (mk_env fs (default_fields fs)) fs))
              (fun vs => RRet (VRec vs))).
Proof.
  intros Hf c c' Hs Hwf. apply rsim_bind; [|intros; apply rsim_refl].
  apply rsim_maperr. eapply Hf; eauto.
Qed.

Lemma deduce_len_same c c' e l : c_szw c = c_szw c' -> deduce_len c e l = deduce_len c' e l.
Proof. intros H. unfold deduce_len, to_size. rewrite H. auto. Qed.

Lemma reader_sim : (forall t, sim_ty t) /\ (forall fs, sim_fields fs) /\ (forall al, sim_alts al).
Proof.
  apply schema_mutind; unfold sim_ty, sim_fields, sim_alts.
  - intros t n c c' seen e Hs Hwf. cbn [wf_ty] in Hwf. apply andb_true_iff in Hwf.
    apply fixed_sim; [apply Hs|tauto].
  - intros elt l b c c' seen e Hs Hwf. cbn [wf_ty] in Hwf. apply andb_true_iff in Hwf.
    cbn [read_ty]. rewrite (deduce_len_same c c') by apply Hs.
    destruct (deduce_len c' e l) as [len|] eqn:El; [|apply rsim_refl].
    apply deduce_len_range in El. apply var_sim; tauto.
  - intros fs IH c c' seen e Hs Hwf. apply sim_struct; auto.
  - intros n fs IH c c' seen e Hs Hwf. cbn [read_ty].
    apply rsim_bind; [|intros; apply rsim_refl]. apply rsim_rrep, sim_struct; auto.
  - intros fs IH recsz l b c c' seen e Hs Hwf. cbn [wf_ty] in Hwf.
    apply andb_true_iff in Hwf. destruct Hwf as [Hwf H2].
    apply andb_true_iff in Hwf. destruct Hwf as [Hwf H3].
    cbn [read_ty]. rewrite (deduce_len_same c c') by apply Hs.
    destruct (deduce_len c' e l) as [len|]; [|apply rsim_refl].
    assert (Hc : ceiling c b = ceiling c' b).
    { destruct Hs as (_ & Hs & Hd). unfold ceiling, to_size. rewrite Hs, Hd; auto. }
    rewrite <- Hc. destruct (len_allowed _ _ _); [|apply rsim_refl].
    intros bs Hb. cbn [rmem]. revert bs Hb.
    apply rsim_bind; [|intros; apply rsim_refl]. apply rsim_rrep, sim_struct; auto.
  - intros b IH p ids c c' seen e Hs Hwf. cbn [wf_ty] in Hwf. apply andb_true_iff in Hwf.
    cbn [read_ty]. destruct (lookups e ids) as [vs|]; [|apply rsim_refl].
    destruct (p vs); [|apply rsim_refl].
    apply rsim_bind; [|intros; apply rsim_refl]. eapply IH; eauto. apply Hwf.
  - intros g al IH c c' seen e Hs Hwf. cbn [wf_ty] in Hwf. apply andb_true_iff in Hwf.
    cbn [read_ty]. destruct (deduce_type e g) as [[i|]|]; try apply rsim_refl.
    apply rsim_bind; [|intros; apply rsim_refl]. eapply IH; eauto. apply Hwf.
  - intros. apply rsim_refl.
  - intros id t IHt k fs IHfs c c' seen e Hs Hwf. cbn [wf_fields] in Hwf.
    apply andb_true_iff in Hwf. destruct Hwf as [Hwf H3].
    apply andb_true_iff in Hwf. destruct Hwf as [H1 H2].
    cbn [read_fields]. apply rsim_bind.
    + apply rsim_maperr, rsim_bind; [eapply IHt; eauto|intros; apply rsim_refl].
    + intros v. apply rsim_bind; [eapply IHfs; eauto|intros; apply rsim_refl].
  - intros. apply rsim_refl.
  - intros t IHt k al IHal c c' seen e i Hs Hwf. cbn [wf_alts] in Hwf.
    apply andb_true_iff in Hwf. destruct Hwf as [H1 H2].
    destruct i; cbn [read_alts].
    + apply rsim_bind; [eapply IHt; eauto|intros; apply rsim_refl].
    + eapply IHal; eauto.
Qed.

Lemma struct_cast_sim c c' fs : same_build c c' -> wf fs = true ->
  rsim (struct_cast c fs) (struct_cast c' fs).
Proof. intros Hs Hwf. destruct reader_sim as (_ & Hf & _). eapply Hf; eauto. Qed.
