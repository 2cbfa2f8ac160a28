(** Reference streams behave like byte sequences. *)
From Coq Require Import ZifyBool ZifyNat.
From Verif Require Import Read Spec Streams BytesFacts ProgFacts ReadFacts ReadMore ReadLemmas.

Lemma skipn_skipn' {A} a b (l : list A) : skipn a (skipn b l) = skipn (a + b) l.
Proof.
  revert l. induction b; intros l; simpl; [rewrite Nat.add_0_r; auto|].
  rewrite Nat.add_succ_r. destruct l; simpl; [apply skipn_nil|auto].
Qed.

Definition bst_good (szw : nat) (lim : Z) (s : bst) : Prop :=
  b_ok s = true /\ 0 <= b_pos s <= Z.of_nat (length (b_buf s)) /\
  Z.of_nat (length (b_buf s)) + lim < 256 ^ Z.of_nat szw.

Definition bst_view (s : bst) : list Z := skipn (Z.to_nat (b_pos s)) (b_buf s).

Lemma byte_stream_conforms szw junk lim :
  conforms (byte_stream szw junk) (bst_good szw lim) bst_view lim.
Proof.
  intros [buf pos ok] n (Ho & Hp & Hs) Hn. simpl in *. subst ok.
  unfold bst_view, bst_read. cbn [b_buf b_pos b_ok].
  unfold pow256. rewrite skipn_length, (Z.mod_small (pos + n)) by lia.
  destruct (Z.leb_spec n (Z.of_nat (length buf - Z.to_nat pos))).
  - destruct (Z.ltb_spec (Z.of_nat (length buf)) (pos + n)); [lia|].
    destruct (Z.leb_spec (pos + n) (Z.of_nat (length buf))); [|lia].
    eexists. split; [reflexivity|]. simpl. split.
    + unfold bst_good. simpl. repeat split; auto; lia.
    + rewrite skipn_skipn'. f_equal. lia.
  - destruct (Z.ltb_spec (Z.of_nat (length buf)) (pos + n)); [|lia]. eauto.
Qed.

Definition mst_good (szw : nat) (s : mst) : Prop :=
  m_bad s = false /\ (0 < length (m_buf s))%nat /\ (m_rd s <= length (m_buf s))%nat /\
  Z.of_nat (length (m_buf s)) < 256 ^ Z.of_nat szw.

Definition mst_view (s : mst) : list Z := skipn (m_rd s) (m_buf s).

Lemma skipn_nth {A} (d : A) l i : (i < length l)%nat -> skipn i l = nth i l d :: skipn (S i) l.
Proof.
  revert i. induction l; intros [|i] H; simpl in *; try lia; auto.
  apply IHl. lia.
Qed.

Lemma mst_loop_spec szw junk buf n : forall rd,
  (0 < length buf)%nat -> (rd <= length buf)%nat ->
  Z.of_nat (length buf) < 256 ^ Z.of_nat szw ->
  mst_loop szw junk buf rd n =
  if (n <=? length buf - rd)%nat then (Some (firstn n (skipn rd buf)), (rd + n)%nat)
  else (None, length buf).
Proof.
  unfold pow256.
  induction n; intros rd H0 Hr Hs; cbn [mst_loop].
  - simpl. rewrite Nat.add_0_r. auto.
  - unfold pow256. rewrite Z.mod_small by lia.
    destruct (Z.ltb_spec (Z.of_nat (length buf) - 1) (Z.of_nat rd)).
    + destruct (Nat.leb_spec (S n) (length buf - rd)); [lia|]. f_equal. lia.
    + rewrite IHn by lia.
      destruct (Nat.leb_spec n (length buf - S rd)), (Nat.leb_spec (S n) (length buf - rd)); try lia.
      * rewrite (skipn_nth junk buf rd) by lia. simpl. f_equal. lia.
      * auto.
Qed.

Lemma memstream_conforms szw junk lim :
  conforms (memstream szw junk) (mst_good szw) mst_view lim.
Proof.
  intros [buf rd wr bad] n (Hb & H0 & Hr & Hs) Hn. simpl in *. subst bad.
  unfold mst_view, mst_read. cbn [m_buf m_rd m_bad m_wr]. rewrite skipn_length.
  rewrite mst_loop_spec by auto.
  destruct (Z.leb_spec n (Z.of_nat (length buf - rd))), (Nat.leb_spec (Z.to_nat n) (length buf - rd));
    try lia; [|eauto].
  eexists. split; [reflexivity|]. split.
  - unfold mst_good. simpl. repeat split; auto. lia.
  - simpl. rewrite skipn_skipn'. f_equal. lia.
Qed.

Definition dst_good (s : dst) : Prop := d_ok s = true /\ (d_rd s <= length (d_buf s))%nat.
Definition dst_view (s : dst) : list Z := skipn (d_rd s) (d_buf s).

Lemma dst_loop_spec junk buf n : forall rd, (rd <= length buf)%nat ->
  dst_loop junk buf rd n =
  if (n <=? length buf - rd)%nat then (Some (firstn n (skipn rd buf)), (rd + n)%nat)
  else (None, length buf).
Proof.
  induction n; intros rd Hr; cbn [dst_loop].
  - simpl. rewrite Nat.add_0_r. auto.
  - destruct (Nat.leb_spec (length buf) rd).
    + destruct (Nat.leb_spec (S n) (length buf - rd)); [lia|]. f_equal. lia.
    + rewrite IHn by lia.
      destruct (Nat.leb_spec n (length buf - S rd)), (Nat.leb_spec (S n) (length buf - rd)); try lia.
      * rewrite (skipn_nth junk buf rd) by lia. simpl. f_equal. lia.
      * auto.
Qed.

Lemma doc_memstream_conforms junk lim : conforms (doc_memstream junk) dst_good dst_view lim.
Proof.
  intros [buf rd ok] n (Hb & Hr) Hn. simpl in *. subst ok.
  unfold dst_view, dst_read. cbn [d_buf d_rd d_ok]. rewrite skipn_length.
  rewrite dst_loop_spec by auto.
  destruct (Z.leb_spec n (Z.of_nat (length buf - rd))), (Nat.leb_spec (Z.to_nat n) (length buf - rd));
    try lia; [|eauto].
  eexists. split; [reflexivity|]. split.
  - unfold dst_good. simpl. split; auto. lia.
  - simpl. rewrite skipn_skipn'. f_equal. lia.
Qed.

(** ** How large a request can be *)

Definition rq {A} (c : cfg) lim (p : rprog reason A) : Prop :=
  rall (fun _ => True) (fun _ => True) (fun n => 0 <= n <= lim) (fun _ => True) p.

Lemma rq_rep {A} c lim n (p : rprog reason A) : rq c lim p -> rq c lim (rrep n p).
Proof. apply rall_rrep. Qed.

Lemma rq_bind {A B} c lim (p : rprog reason A) (f : A -> rprog reason B) :
  rq c lim p -> (forall a, rq c lim (f a)) -> rq c lim (rbind p f).
Proof. apply rall_bind. Qed.

Lemma rq_check c lim k v : rq c lim (rcheck k v).
Proof. unfold rcheck, rq. destruct (check k v); simpl; auto. Qed.

Lemma rq_struct c lim fs e :
  rall (fun _ => True) (fun _ => True) (fun n => 0 <= n <= lim) (fun _ => True)
    (read_fields c e fs) ->
  rq c lim (rbind (rmaperr fst (read_fields c e fs)) (fun vs => RRet (VRec vs))).
Proof.
  intros H. apply (rq_bind c); [|intros; exact I]. apply rall_maperr. auto.
Qed.

Lemma reader_requests c lim :
  (forall t, forall seen e, wf_ty seen t = true -> widest c t <= lim -> rq c lim (read_ty c e t)) /\
  (forall fs, forall seen e, wf_fields seen fs = true -> widest_fields c fs <= lim ->
     rall (fun _ => True) (fun _ => True) (fun n => 0 <= n <= lim) (fun _ => True) (read_fields c e fs)) /\
  (forall al, forall seen e i, wf_alts seen al = true -> widest_alts c al <= lim ->
     rq c lim (read_alts c e al i)).
Proof.
  apply schema_mutind.
  - intros t n seen e Hwf Hw. cbn [read_ty widest] in *. unfold read_fixed, rq.
    destruct (csize t <? n)%nat; simpl; auto. split; [lia|split; auto].
    intros bs. destruct (load _ _ _); simpl; auto.
  - intros elt l b seen e Hwf Hw. cbn [read_ty widest wf_ty] in *.
    apply andb_true_iff in Hwf. destruct Hwf as [H1 H2]. pose proof (csize_pos _ H1).
    destruct (deduce_len c e l) as [len|] eqn:El; [|exact I].
    apply deduce_len_range in El as Hr.
    unfold read_var. destruct (len_allowed _ _ _) eqn:Ea; [|exact I].
    split; auto. apply (rq_bind c).
    + apply len_allowed_ceiling in Ea; try lia.
      assert (0 <= match b with Some m => m | None => c_dmax c end mod 256 ^ Z.of_nat (c_szw c)
                < 256 ^ Z.of_nat (c_szw c)) by (apply Z.mod_pos_bound; lia).
      unfold read_raw, rq. destruct (c_cx c).
      * destruct (Z.eqb_spec len 0); [subst; exact I|].
        apply rall_bind; [|simpl; auto]. apply rall_rrep. simpl. repeat split; auto; nia.
      * simpl. unfold to_size, pow256. rewrite Z.mod_small by nia. repeat split; auto; nia.
    + intros mem. unfold rq. destruct (sequence _); simpl; auto.
  - intros fs IH seen e Hwf Hw. apply rq_struct. eapply IH; eauto.
  - intros n fs IH seen e Hwf Hw. cbn [read_ty]. apply (rq_bind c); [|intros; exact I].
    apply (rq_rep c), (rq_struct c). eapply IH; eauto.
  - intros fs IH recsz l b seen e Hwf Hw. cbn [wf_ty] in Hwf.
    apply andb_true_iff in Hwf. destruct Hwf as [Hwf H2].
    apply andb_true_iff in Hwf. destruct Hwf as [Hwf H3].
    cbn [read_ty]. destruct (deduce_len c e l) as [len|] eqn:El; [|exact I].
    destruct (len_allowed _ _ _) eqn:Ea; [|exact I].
    split; auto. apply (rq_bind c); [|intros; exact I].
    apply (rq_rep c), (rq_struct c). eapply IH; eauto.
  - intros b IH p ids seen e Hwf Hw. cbn [wf_ty] in Hwf. apply andb_true_iff in Hwf.
    destruct Hwf as [H1 H2]. cbn [read_ty]. destruct (lookups e ids) as [vs|]; [|exact I].
    destruct (p vs); [|exact I]. apply (rq_bind c); [|intros; exact I]. eapply IH; eauto.
  - intros g al IH seen e Hwf Hw. cbn [wf_ty] in Hwf. apply andb_true_iff in Hwf.
    destruct Hwf as [H1 H2]. cbn [read_ty].
    destruct (deduce_type e g) as [[i|]|]; try exact I.
    apply (rq_bind c); [|intros; exact I]. eapply IH; eauto.
  - intros; exact I.
  - intros id t IHt k fs IHfs seen e Hwf Hw. cbn [wf_fields widest_fields] in *.
    apply andb_true_iff in Hwf. destruct Hwf as [Hwf H3].
    apply andb_true_iff in Hwf. destruct Hwf as [H1 H2].
    cbn [read_fields]. apply rall_bind.
    + apply rall_maperr. apply rall_bind; [|intros; apply rq_check with (c := c)].
      eapply IHt; eauto. lia.
    + intros v. apply rall_bind; [|simpl; auto]. eapply IHfs; eauto. lia.
  - intros; exact I.
  - intros t IHt k al IHal seen e i Hwf Hw. cbn [wf_alts widest_alts] in *.
    apply andb_true_iff in Hwf. destruct Hwf as [H1 H2].
    destruct i; cbn [read_alts].
    + apply (rq_bind c); [|intros; apply rq_check]. eapply IHt; eauto. lia.
    + eapply IHal; eauto. lia.
Qed.

Lemma struct_cast_conforms c S good view lim alloc fs s o s' ev :
  wf fs = true -> conforms S good view lim -> widest_fields c fs <= lim -> good s ->
  rrun S alloc (struct_cast c fs) s = (o, s', ev) -> o <> Throw ->
  fst (rmem (struct_cast c fs) (view s)) = o /\
  (forall a, o = Ok a -> good s' /\ view s' = snd (rmem (struct_cast c fs) (view s))).
Proof.
  intros Hwf Hc Hw Hg Hr. destruct (reader_requests c lim) as (_ & Hf & _).
  eapply rrun_conforms; eauto.
Qed.

Lemma struct_cast_conforms_two c S1 good1 view1 S2 good2 view2 lim alloc fs
  s1 s2 o1 s1' ev1 o2 s2' ev2 :
  wf fs = true -> conforms S1 good1 view1 lim -> conforms S2 good2 view2 lim ->
  widest_fields c fs <= lim -> good1 s1 -> good2 s2 -> view1 s1 = view2 s2 ->
  rrun S1 alloc (struct_cast c fs) s1 = (o1, s1', ev1) ->
  rrun S2 alloc (struct_cast c fs) s2 = (o2, s2', ev2) ->
  o1 = o2 /\ ev1 = ev2 /\
  (forall a, o1 = Ok a -> good1 s1' /\ good2 s2' /\ view1 s1' = view2 s2').
Proof.
  intros Hwf Hc1 Hc2 Hw Hg1 Hg2 Hv Hr1 Hr2. destruct (reader_requests c lim) as (_ & Hf & _).
  eapply rrun_conforms_two; eauto.
Qed.
