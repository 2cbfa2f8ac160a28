(** * Resource bounds of a read *)
From Verif Require Import PropDefs MoreSpec BytesFacts ReadFacts ReadMore.
From Coq Require Import ZifyBool ZifyNat.

Section Cost.
Variables wr wa : Z -> Z.

(** On every path the weighted requests add up to at most [b]. *)
Fixpoint cost_le {E A} (p : rprog E A) (b : Z) : Prop :=
  match p with
  | RRead n _ k => 0 <= wr n <= b /\ forall bs, cost_le (k bs) (b - wr n)
  | RAlloc n k => 0 <= wa n <= b /\ cost_le k (b - wa n)
  | _ => 0 <= b
  end.

Lemma cost_mono {E A} (p : rprog E A) : forall b b', cost_le p b -> b <= b' -> cost_le p b'.
Proof.
  induction p as [a|e| | |n e k IH|n k IH]; simpl; intros b b' H L; try lia.
  - destruct H as [H1 H2]. split; [lia|]. intros bs. eapply IH; [apply H2|lia].
  - destruct H as [H1 H2]. split; [lia|]. eapply IH; [apply H2|lia].
Qed.

Lemma cost_nonneg {E A} (p : rprog E A) b : cost_le p b -> 0 <= b.
Proof. destruct p; simpl; intros; lia. Qed.

Lemma cost_bind {E A B} (p : rprog E A) (f : A -> rprog E B) : forall a b,
  cost_le p a -> (forall x, cost_le (f x) b) -> 0 <= b -> cost_le (rbind p f) (a + b).
Proof.
  induction p as [x|e| | |n e k IH|n k IH]; simpl; intros a b H F L; try lia.
  - eapply cost_mono; [apply F|lia].
  - destruct H as [H1 H2]. split; [lia|]. intros bs.
    replace (a + b - wr n) with ((a - wr n) + b) by lia. apply IH; auto.
  - destruct H as [H1 H2]. split; [lia|].
    replace (a + b - wa n) with ((a - wa n) + b) by lia. apply IH; auto.
Qed.

Lemma cost_maperr {E E' A} (g : E -> E') (p : rprog E A) : forall b,
  cost_le p b -> cost_le (rmaperr g p) b.
Proof.
  induction p as [x|e| | |n e k IH|n k IH]; simpl; intros b H; try lia.
  - destruct H as [H1 H2]. split; auto.
  - destruct H as [H1 H2]. split; auto.
Qed.

Lemma cost_bind0 {E A B} (p : rprog E A) (f : A -> rprog E B) a :
  cost_le p a -> (forall x, cost_le (f x) 0) -> cost_le (rbind p f) a.
Proof. intros. rewrite <- (Z.add_0_r a). apply cost_bind; auto; lia. Qed.

Lemma cost_rep {E A} (p : rprog E A) b : cost_le p b -> forall n,
  cost_le (rrep n p) (Z.of_nat n * b).
Proof.
  intros H. pose proof (cost_nonneg _ _ H). induction n as [|n IH]; simpl; [lia|].
  replace (Z.of_nat (S n) * b) with (b + Z.of_nat n * b) by lia.
  apply cost_bind; [assumption| |nia]. intros x. apply cost_bind0; [assumption|].
  intros l. simpl. lia.
Qed.

Fixpoint weigh (ev : list event) : Z :=
  match ev with
  | [] => 0
  | EvRead n _ :: ev' => wr n + weigh ev'
  | EvAlloc n :: ev' => wa n + weigh ev'
  end.

Lemma cost_run {E A} (p : rprog E A) S alloc : forall s b o s' ev,
  cost_le p b -> rrun S alloc p s = (o, s', ev) -> weigh ev <= b.
Proof.
  induction p as [x|e| | |n e k IH|n k IH]; simpl; intros s b o s' ev H R;
    try (injection R as <- <- <-; simpl; lia).
  - destruct H as [H1 H2]. destruct (i_read S s n) as [[bs|] s1].
    + destruct (rrun S alloc (k bs) s1) as [[o1 s2] ev1] eqn:E1. injection R as <- <- <-.
      simpl. specialize (IH bs s1 (b - wr n) _ _ _ (H2 bs) E1). lia.
    + injection R as <- <- <-. simpl. lia.
  - destruct H as [H1 H2]. destruct (alloc n).
    + destruct (rrun S alloc k s) as [[o1 s2] ev1] eqn:E1. injection R as <- <- <-.
      simpl. specialize (IH s (b - wa n) _ _ _ H2 E1). lia.
    + injection R as <- <- <-. simpl. lia.
Qed.

Variable c : cfg.
Variable own : fty -> Z.

Hypothesis own_fixed : forall t n, 0 <= wr (Z.of_nat n) <= own (FFixed t n).
Hypothesis own_var : forall elt l b len, (0 < csize elt)%nat -> 0 <= len ->
  len * Z.of_nat (csize elt) <= ceiling_of c b ->
  0 <= wa (len * Z.of_nat (csize elt)) /\ 0 <= wr (Z.of_nat (csize elt)) /\
  0 <= wr (to_size c (len * Z.of_nat (csize elt))) /\
  wa (len * Z.of_nat (csize elt)) +
  (if c_cx c then len * wr (Z.of_nat (csize elt))
   else wr (to_size c (len * Z.of_nat (csize elt)))) <= own (FVar elt l b).
Hypothesis own_var0 : forall elt l b, 0 <= own (FVar elt l b).
Hypothesis own_vec : forall fs recsz l b len, 0 < recsz -> 0 <= len ->
  len * recsz <= ceiling_of c b -> 0 <= wa (len * recsz) <= own (FVecRec fs recsz l b).

Lemma ct_wf_pos t : ct_wf t = true -> (0 < csize t)%nat.
Proof.
  induction t as [s|n t IH|n|w]; simpl; intros H; try lia. apply ffmt_pos; auto.
Qed.

Lemma allowed_le b esz len : 0 < esz -> 0 <= len ->
  len_allowed (ceiling c b) esz len = true -> len * esz <= ceiling_of c b.
Proof.
  intros He Hl H. rewrite <- (Z2Nat.id len Hl) in *.
  apply (len_allowed_iff c b esz (Z.to_nat len) He) in H. exact H.
Qed.

Lemma deduce_len_nonneg e l len : deduce_len c e l = Some len -> 0 <= len.
Proof.
  assert (forall z, 0 <= to_size c z).
  { intros z. apply Z.mod_pos_bound, pow256_pos. }
  destruct l as [id|f ids]; simpl.
  - destruct (lookup e id) as [[z|?|?| |?|? ?|? ?]|]; try discriminate. intros [= <-]. auto.
  - destruct (lookups e ids); try discriminate. intros [= <-]. auto.
Qed.

Lemma cost_rcheck k v : cost_le (rcheck k v) 0.
Proof. unfold rcheck. destruct (check k v); simpl; lia. Qed.

Lemma cost_all :
  (forall t seen e, wf_ty seen t = true -> cost_le (read_ty c e t) (total c own t)) /\
  (forall fs seen e, wf_fields seen fs = true -> cost_le (read_fields c e fs) (total_fields c own fs)) /\
  (forall al seen e i, wf_alts seen al = true -> cost_le (read_alts c e al i) (total_alts c own al)).
Proof.
  apply schema_mutind.
  - intros t n seen e _. simpl. unfold read_fixed. destruct (own_fixed t n).
    destruct (Nat.ltb _ _); simpl; [lia|]. split; [lia|]. intros bs.
    destruct (load _ _ _); simpl; lia.
  - intros elt l b seen e H. simpl in *. apply andb_true_iff in H. destruct H as [Hc _].
    apply ct_wf_pos in Hc. pose proof (own_var0 elt l b).
    destruct (deduce_len c e l) as [len|] eqn:El; simpl; [|lia].
    apply deduce_len_nonneg in El. unfold read_var.
    destruct (len_allowed _ _ _) eqn:Ea; simpl; [|lia].
    apply allowed_le in Ea; [|lia..].
    destruct (own_var elt l b len Hc El Ea) as (H1 & H2 & H3 & H4).
    split; [destruct (c_cx c); nia|].
    apply cost_bind0.
    2: { intros m. destruct (sequence _); simpl; lia. }
    unfold read_raw. destruct (c_cx c).
    + apply cost_bind0; [|intros; simpl; lia].
      apply cost_mono with (Z.of_nat (Z.to_nat len) * wr (Z.of_nat (csize elt))); [|lia].
      apply cost_rep. simpl. split; intros; simpl; lia.
    + simpl. split; intros; simpl; lia.
  - intros fs IH seen e H. simpl in *. apply cost_bind0; [|intros; simpl; lia].
    apply cost_maperr. eapply IH; eauto.
  - intros n fs IH seen e H. simpl in *. apply cost_bind0; [|intros; simpl; lia].
    apply cost_rep. apply cost_bind0; [|intros; simpl; lia]. apply cost_maperr. eapply IH; eauto.
  - intros fs IH recsz l b seen e H. simpl in *.
    apply andb_true_iff in H. destruct H as [H _]. apply andb_true_iff in H. destruct H as [Hf Hr].
    assert (P : cost_le (rbind (rmaperr fst (read_fields c (mk_env fs (default_fields fs)) fs))
                    (fun vs => RRet (VRec vs))) (total_fields c own fs)).
    { apply cost_bind0; [|intros; simpl; lia]. apply cost_maperr. eapply IH; eauto. }
    pose proof (cost_nonneg _ _ P) as Pn.
    assert (Cn : 0 <= ceiling_of c b) by (unfold ceiling_of; apply Z.mod_pos_bound; lia).
    assert (Q : 0 <= ceiling_of c b / recsz) by (apply Z.div_pos; lia).
    assert (O : 0 <= own (FVecRec fs recsz l b)).
    { destruct (own_vec fs recsz l b 0); lia. }
    destruct (deduce_len c e l) as [len|] eqn:El; simpl; [|nia].
    apply deduce_len_nonneg in El.
    destruct (len_allowed _ _ _) eqn:Ea; simpl; [|nia].
    apply allowed_le in Ea; [|lia..].
    destruct (own_vec fs recsz l b len) as [H1 H2]; [lia..|].
    assert (len <= ceiling_of c b / recsz) by (apply Z.div_le_lower_bound; lia).
    split; [nia|].
    apply cost_bind0; [|intros; simpl; lia].
    apply cost_mono with (Z.of_nat (Z.to_nat len) * total_fields c own fs); [|nia].
    apply cost_rep. exact P.
  - intros b IH p ids seen e H. simpl in *. apply andb_true_iff in H. destruct H as [_ Hb].
    specialize (IH seen e Hb). pose proof (cost_nonneg _ _ IH).
    destruct (lookups e ids); simpl; [|lia]. destruct (p l); simpl; [|lia].
    apply cost_bind0; auto. intros; simpl; lia.
  - intros g al IH seen e H. simpl in *. apply andb_true_iff in H. destruct H as [_ Ha].
    pose proof (cost_nonneg _ _ (IH seen e 0%nat Ha)).
    destruct (deduce_type e g) as [[i|]|]; simpl; try lia.
    apply cost_bind0; [eapply IH; eauto|]. intros; simpl; lia.
  - intros seen e _. simpl. lia.
  - intros id t IHt k fs IHf seen e H. simpl in *.
    apply andb_true_iff in H. destruct H as [H Hf]. apply andb_true_iff in H. destruct H as [_ Ht].
    pose proof (cost_nonneg _ _ (IHf (id :: seen) e Hf)).
    apply cost_bind; [| |assumption].
    + apply cost_maperr. apply cost_bind0; [eapply IHt; eauto|]. apply cost_rcheck.
    + intros v. apply cost_bind0; [eapply IHf; eauto|]. intros; simpl; lia.
  - intros seen e i _. simpl. lia.
  - intros t IHt k al IHa seen e i H. simpl in *.
    apply andb_true_iff in H. destruct H as [Ht Ha].
    pose proof (cost_nonneg _ _ (IHa seen e 0%nat Ha)).
    destruct i as [|i].
    + apply cost_mono with (total c own t); [|lia].
      apply cost_bind0; [eapply IHt; eauto|]. apply cost_rcheck.
    + apply cost_mono with (total_alts c own al); [|lia]. eapply IHa; eauto.
Qed.

Lemma cost_cast fs S alloc s o s' ev : wf fs = true ->
  rrun S alloc (struct_cast c fs) s = (o, s', ev) -> weigh ev <= total_fields c own fs.
Proof.
  intros Hw R. eapply cost_run; [|exact R]. eapply (proj1 (proj2 cost_all)). exact Hw.
Qed.

End Cost.

Lemma ceiling_nonneg c b : 0 <= ceiling_of c b.
Proof. unfold ceiling_of. apply Z.mod_pos_bound. apply Z.pow_pos_nonneg; lia. Qed.

Lemma to_size_small c b n : 0 <= n <= ceiling_of c b -> to_size c n = n.
Proof.
  intros H. unfold to_size. apply Z.mod_small. split; [lia|].
  assert (ceiling_of c b < pow256 (c_szw c)).
  { unfold ceiling_of, pow256. apply Z.mod_pos_bound. apply Z.pow_pos_nonneg; lia. }
  lia.
Qed.

Lemma weigh_alloc ev : allocated ev = weigh (fun _ => 0) (fun n => n) ev.
Proof. induction ev as [|[n d|n] ev IH]; simpl; lia. Qed.

Lemma weigh_requests ev : requests ev = weigh (fun _ => 1) (fun _ => 0) ev.
Proof. induction ev as [|[n d|n] ev IH]; simpl; lia. Qed.

Lemma weigh_bytes ev : requested ev = weigh (fun n => n) (fun _ => 0) ev.
Proof. induction ev as [|[n d|n] ev IH]; simpl; lia. Qed.

Lemma memory_bound c fs S alloc s o s' ev : wf fs = true ->
  rrun S alloc (struct_cast c fs) s = (o, s', ev) ->
  allocated ev <= total_fields c (own_memory c) fs.
Proof.
  intros Hw R. rewrite weigh_alloc. eapply cost_cast; eauto.
  - intros; simpl; lia.
  - intros elt l b len He Hl Hc. simpl. split; [nia|]. split; [lia|]. split; [lia|].
    destruct (c_cx c); lia.
  - intros. simpl. apply ceiling_nonneg.
  - intros. simpl. nia.
Qed.

Lemma requests_bound c fs S alloc s o s' ev : wf fs = true ->
  rrun S alloc (struct_cast c fs) s = (o, s', ev) ->
  requests ev <= total_fields c (own_requests c) fs.
Proof.
  intros Hw R. rewrite weigh_requests. eapply cost_cast; eauto.
  - intros; simpl; lia.
  - intros elt l b len He Hl Hc. simpl. split; [nia|]. split; [lia|]. split; [lia|].
    destruct (c_cx c); [|lia].
    assert (len <= ceiling_of c b / Z.of_nat (csize elt)) by (apply Z.div_le_lower_bound; lia). lia.
  - intros. simpl. pose proof (ceiling_nonneg c b). destruct (c_cx c); [|lia].
    destruct (csize elt); [rewrite Zdiv_0_r; lia|]. apply Z.div_pos; lia.
  - intros. simpl. lia.
Qed.

Lemma bytes_bound c fs S alloc s o s' ev : wf fs = true ->
  rrun S alloc (struct_cast c fs) s = (o, s', ev) ->
  requested ev <= total_fields c (own_bytes c) fs.
Proof.
  intros Hw R. rewrite weigh_bytes. eapply cost_cast; eauto.
  - intros; simpl; lia.
  - intros elt l b len He Hl Hc. simpl.
    rewrite (to_size_small c b) by nia. split; [lia|]. split; [lia|]. split; [nia|].
    destruct (c_cx c); lia.
  - intros. simpl. apply ceiling_nonneg.
  - intros. simpl. lia.
Qed.
