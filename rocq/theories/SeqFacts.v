(** Messages one after the other; the reference streams as a channel. *)
From Coq Require Import Lia ZifyBool ZifyNat.
From Verif Require Import MoreDefs Streams BytesFacts ProgFacts ReadFacts ReadMore ReadLemmas
  ReadFinal StreamFacts WriteFinal RTrip2.

Lemma read_sequence c msgs rest :
  Forall (fun m => wf (fst m) = true /\ valid c (fst m) (snd m)) msgs ->
  rmem (read_msgs c (map fst msgs)) (enc_msgs (c_wire c) msgs ++ rest) = (Ok (map snd msgs), rest).
Proof.
  intros H. induction H as [|[fs vs] msgs [Hw Hv] _ IH]; [reflexivity|].
  cbn [map fst snd read_msgs enc_msgs] in *. rewrite <- app_assoc.
  rewrite rmem_bind, read_complete by auto. rewrite rmem_bind, IH. reflexivity.
Qed.

Lemma read_sequence_sound c fss : Forall (fun fs => wf fs = true) fss -> forall bs vss rest,
  Forall byte_ok bs -> rmem (read_msgs c fss) bs = (Ok vss, rest) ->
  length vss = length fss /\ Forall (fun m => valid c (fst m) (snd m)) (combine fss vss) /\
  bs = enc_msgs (c_wire c) (combine fss vss) ++ rest.
Proof.
  intros H. induction H as [|fs fss Hw _ IH]; intros bs vss rest Hb R.
  - inversion R; subst. repeat split; auto. constructor.
  - cbn [read_msgs] in R. apply rmem_bind_ok in R. destruct R as (vs & mid & R1 & R).
    apply rmem_bind_ok in R. destruct R as (wss & mid' & R2 & R). inversion R; subst.
    pose proof (rmem_bytes _ _ _ _ Hb R1) as Hm.
    destruct (read_sound _ _ _ _ _ Hw Hb R1) as [V ->].
    destruct (IH _ _ _ Hm R2) as (L & F & ->).
    cbn [length combine enc_msgs]. split; [lia|]. split; [constructor; auto|].
    rewrite app_assoc. auto.
Qed.

Lemma unambiguous c fs vs ws x y : wf fs = true -> valid c fs vs -> valid c fs ws ->
  enc_fields (c_wire c) fs vs ++ x = enc_fields (c_wire c) fs ws ++ y -> vs = ws /\ x = y.
Proof.
  intros Hw Hv Hv' E. pose proof (read_complete c fs vs x Hw Hv) as R.
  rewrite E, (read_complete c fs ws y Hw Hv') in R. inversion R; auto.
Qed.

Lemma write_read_sequence c msgs out rest :
  Forall (fun m => let '(fs, vs) := m in
    wf fs = true /\ typed fs = true /\ has_fields fs vs /\ clean_fields c fs = true /\
    in_sync c fs vs /\ sized_fields c fs (emitted c fs vs)) msgs ->
  wmem (write_msgs c msgs) = (Ok tt, out) ->
  rmem (read_msgs c (map fst msgs)) (out ++ rest) =
    (Ok (map (fun m => emitted c (fst m) (snd m)) msgs), rest).
Proof.
  intros H. revert out. induction H as [|[fs vs] msgs (H1 & H2 & H3 & H4 & H5 & H6) _ IH]; intros out W.
  - inversion W; subst. reflexivity.
  - cbn [write_msgs] in W. apply wmem_bind_ok in W. destruct W as ([] & o1 & o2 & W1 & W2 & ->).
    cbn [map fst snd read_msgs]. rewrite <- app_assoc, rmem_bind.
    destruct (round_trip_full c fs vs o1 (o2 ++ rest) H1 H2 H3 H4 H5 H6 W1) as [R _].
    rewrite R, rmem_bind, (IH _ W2). reflexivity.
Qed.

(** ** The reference byte_stream as an output *)

Lemma byte_ostream_run {E A} (p : wprog E A) : forall buf pos,
  exists ch, wrun byte_ostream p (mkBst buf pos true) =
    (fst (wmem p), mkBst (buf ++ snd (wmem p)) pos true, ch) /\ concat (map fst ch) = snd (wmem p).
Proof.
  induction p; intros buf pos; cbn [wrun wmem fst snd];
    try (exists []; rewrite app_nil_r; split; reflexivity).
  cbn [byte_ostream o_write bst_write b_ok b_buf b_pos].
  destruct (IHp (buf ++ bs) pos) as (ch & H1 & H2). destruct (wmem p) as [o out]. cbn [fst snd] in *.
  fold byte_ostream. rewrite H1. exists ((bs, true) :: ch).
  rewrite <- app_assoc. split; [reflexivity|]. simpl. rewrite H2. auto.
Qed.

Lemma byte_channel c fs vs buf s ch szw junk alloc o s2 ev lim :
  wf fs = true -> typed fs = true -> has_fields fs vs -> clean_fields c fs = true ->
  in_sync c fs vs -> sized_fields c fs (emitted c fs vs) -> widest_fields c fs <= lim ->
  wrun byte_ostream (stream_cast c fs vs) (mkBst buf (Z.of_nat (length buf)) true) = (Ok tt, s, ch) ->
  Z.of_nat (length (b_buf s)) + lim < 256 ^ Z.of_nat szw ->
  rrun (byte_stream szw junk) alloc (struct_cast c fs) s = (o, s2, ev) -> o <> Throw ->
  o = Ok (emitted c fs vs) /\ b_ok s2 = true /\ skipn (Z.to_nat (b_pos s2)) (b_buf s2) = [].
Proof.
  intros Hw Ht Hv Hc Hs Hz Hl W Hroom R Hthrow.
  destruct (byte_ostream_run (stream_cast c fs vs) buf (Z.of_nat (length buf))) as (ch' & W' & _).
  rewrite W in W'. destruct (wmem (stream_cast c fs vs)) as [o' out] eqn:Em. cbn [fst snd] in W'.
  inversion W'; subst. cbn [b_buf] in Hroom.
  destruct (round_trip_full c fs vs out [] Hw Ht Hv Hc Hs Hz Em) as [RT _]. rewrite app_nil_r in RT.
  pose proof (fun G => struct_cast_conforms _ _ _ _ _ _ _ _ _ _ _ Hw (byte_stream_conforms szw junk lim) Hl
                G R Hthrow) as P.
  destruct P as [H1 H2].
  { unfold bst_good. cbn [b_ok b_pos b_buf]. split; [reflexivity|]. split; [rewrite app_length; lia|exact Hroom]. }
  unfold bst_view, bst_good in H1, H2. cbn [b_pos b_buf] in H1, H2.
  assert (E : skipn (Z.to_nat (Z.of_nat (length buf))) (buf ++ out) = out).
  { rewrite Nat2Z.id, skipn_app, skipn_all, Nat.sub_diag. reflexivity. }
  rewrite E, RT in H1, H2. cbn [fst snd] in *. subst o.
  destruct (H2 _ eq_refl) as [(G1 & _) G2]. auto.
Qed.

Lemma skipn_plus {A} n m : forall l : list A, skipn n (skipn m l) = skipn (n + m) l.
Proof.
  induction m; intros l; [rewrite Nat.add_0_r; reflexivity|].
  destruct l; [rewrite !skipn_nil; reflexivity|]. rewrite Nat.add_succ_r. cbn [skipn]. apply IHm.
Qed.

(** ** The constexpr memstream as an output: it takes as much as it has room for. *)

Lemma mst_store_fits : forall bs buf wr, (wr + length bs <= length buf)%nat ->
  mst_store buf wr bs =
    (true, (firstn wr buf ++ bs ++ skipn (wr + length bs) buf, (wr + length bs)%nat)).
Proof.
  induction bs; intros buf wr H; cbn [mst_store length] in *.
  - rewrite Nat.add_0_r. simpl. rewrite firstn_skipn. auto.
  - replace (Nat.ltb wr (length buf)) with true by lia.
    assert (L : length (firstn wr buf) = wr) by (rewrite firstn_length; lia).
    assert (L' : length (firstn wr buf ++ a :: skipn (S wr) buf) = length buf).
    { rewrite app_length, L. cbn [length]. rewrite skipn_length. lia. }
    rewrite IHbs by lia. f_equal. f_equal; [|lia].
    rewrite firstn_app, L. replace (S wr - wr)%nat with 1%nat by lia.
    rewrite (firstn_all2 (n := S wr) (firstn wr buf)) by lia. cbn [firstn].
    rewrite <- app_assoc. f_equal. cbn [app]. f_equal. f_equal.
    rewrite skipn_app, L, skipn_all2 by lia. cbn [app].
    replace (S wr + length bs - wr)%nat with (S (length bs)) by lia.
    change (skipn (S (length bs)) (a :: skipn (S wr) buf)) with (skipn (length bs) (skipn (S wr) buf)).
    rewrite skipn_plus. f_equal. lia.
Qed.

Lemma mst_store_full : forall bs buf wr, (wr <= length buf)%nat -> (length buf < wr + length bs)%nat ->
  mst_store buf wr bs = (false, (firstn wr buf ++ firstn (length buf - wr) bs, length buf)).
Proof.
  induction bs; intros buf wr H1 H2; cbn [mst_store length] in *; [lia|].
  destruct (Nat.ltb_spec wr (length buf)).
  - assert (L : length (firstn wr buf) = wr) by (rewrite firstn_length; lia).
    assert (L' : length (firstn wr buf ++ a :: skipn (S wr) buf) = length buf).
    { rewrite app_length, L. cbn [length]. rewrite skipn_length. lia. }
    rewrite IHbs by lia. rewrite L'. f_equal. f_equal.
    rewrite firstn_app, L. replace (S wr - wr)%nat with 1%nat by lia.
    rewrite (firstn_all2 (n := S wr) (firstn wr buf)) by lia. cbn [firstn].
    rewrite <- app_assoc. f_equal.
    replace (length buf - wr)%nat with (S (length buf - S wr)) by lia. reflexivity.
  - replace wr with (length buf) by lia. rewrite firstn_all, Nat.sub_diag. simpl. rewrite app_nil_r. auto.
Qed.

Lemma mem_ostream_run {E A} (p : wprog E A) : forall buf rd wr, (wr <= length buf)%nat ->
  let out := snd (wmem p) in
  if Nat.leb (wr + length out) (length buf)
  then exists ch, wrun mem_ostream p (mkMst buf rd wr false) =
         (fst (wmem p), mkMst (firstn wr buf ++ out ++ skipn (wr + length out) buf) rd
                          (wr + length out) false, ch)
  else exists e ch, wrun mem_ostream p (mkMst buf rd wr false) =
         (Err e, mkMst (firstn wr buf ++ firstn (length buf - wr) out) rd (length buf) true, ch) /\
         exists bs, In (bs, false) ch.
Proof.
  induction p; intros buf rd wr Hwr; cbn [wrun wmem fst snd length];
    try (rewrite Nat.add_0_r; replace (Nat.leb wr (length buf)) with true by lia;
         exists []; cbn [app]; rewrite firstn_skipn; reflexivity).
  cbn [mem_ostream o_write mst_write m_buf m_wr m_rd m_bad].
  destruct (wmem p) as [o out] eqn:Em. cbn [fst snd] in *. rewrite app_length.
  destruct (le_lt_dec (wr + length bs) (length buf)) as [Hf|Hf].
  - unfold mst_write. cbn [m_buf m_wr m_rd m_bad]. rewrite mst_store_fits by auto. cbn [negb].
    set (buf' := firstn wr buf ++ bs ++ skipn (wr + length bs) buf).
    assert (L : length (firstn wr buf) = wr) by (rewrite firstn_length; lia).
    assert (L' : length buf' = length buf).
    { unfold buf'. rewrite !app_length, L, skipn_length. lia. }
    specialize (IHp buf' rd (wr + length bs)%nat ltac:(lia)). rewrite L' in IHp.
    assert (F : firstn (wr + length bs) buf' = firstn wr buf ++ bs).
    { unfold buf'. rewrite app_assoc, firstn_app, app_length, L, Nat.sub_diag.
      rewrite firstn_all2 by (rewrite app_length; lia). simpl. rewrite app_nil_r. auto. }
    assert (K : skipn (wr + length bs) buf' = skipn (wr + length bs) buf).
    { unfold buf'. rewrite app_assoc, skipn_app, app_length, L, Nat.sub_diag.
      rewrite skipn_all2 by (rewrite app_length; lia). reflexivity. }
    rewrite F in IHp.
    replace (wr + length bs + length out)%nat with (wr + (length bs + length out))%nat in IHp by lia.
    destruct (Nat.leb_spec (wr + (length bs + length out)) (length buf)).
    + destruct IHp as [ch ->]. exists ((bs, true) :: ch). f_equal. f_equal. f_equal.
      rewrite <- !app_assoc. f_equal. f_equal. f_equal.
      replace (wr + (length bs + length out))%nat with (length out + (wr + length bs))%nat by lia.
      unfold buf'. rewrite app_assoc, skipn_app.
      rewrite (skipn_all2 (firstn wr buf ++ bs)) by (rewrite app_length; lia).
      rewrite app_length, L. cbn [app].
      replace (length out + (wr + length bs) - (wr + length bs))%nat with (length out) by lia.
      rewrite skipn_plus. reflexivity.
    + destruct IHp as (e' & ch & -> & bs' & Hin). exists e', ((bs, true) :: ch).
      split; [|exists bs'; right; auto]. f_equal. f_equal. f_equal.
      rewrite <- app_assoc. f_equal. rewrite firstn_app, (firstn_all2 (n := (length buf - wr)%nat) bs) by lia. f_equal.
      f_equal. lia.
  - unfold mst_write. cbn [m_buf m_wr m_rd m_bad]. rewrite mst_store_full by lia.
    replace (Nat.leb (wr + (length bs + length out)) (length buf)) with false by lia.
    exists e, [(bs, false)]. split; [|exists bs; left; auto]. f_equal. f_equal. f_equal. f_equal.
    rewrite firstn_app. replace (length buf - wr - length bs)%nat with 0%nat by lia.
    rewrite firstn_O, app_nil_r. auto.
Qed.

Lemma mem_ostream_cast c fs vs buf rd wr o s ch : (wr <= length buf)%nat ->
  wrun mem_ostream (stream_cast c fs vs) (mkMst buf rd wr false) = (o, s, ch) ->
  let out := snd (wmem (stream_cast c fs vs)) in
  m_rd s = rd /\ length (m_buf s) = length buf /\
  if Nat.leb (wr + length out) (length buf)
  then o = fst (wmem (stream_cast c fs vs)) /\ m_bad s = false /\ m_wr s = (wr + length out)%nat /\
       m_buf s = firstn wr buf ++ out ++ skipn (wr + length out) buf
  else (exists id, o = Err (BufferExhaustion, id) /\ In id (f_ids fs)) /\ m_bad s = true /\
       m_buf s = firstn wr buf ++ firstn (length buf - wr) out.
Proof.
  intros Hwr R out.
  pose proof (mem_ostream_run (stream_cast c fs vs) buf rd wr Hwr) as H. cbn zeta in H. fold out in H.
  destruct (Nat.leb_spec (wr + length out) (length buf)) as [Hf|Hf].
  - destruct H as [ch' H]. rewrite R in H. inversion H; subst. cbn [m_rd m_buf m_bad m_wr].
    split; auto. split; auto.
    rewrite !app_length, firstn_length, skipn_length. lia.
  - destruct H as (e & ch' & H & bs & Hin). rewrite R in H. inversion H; subst. cbn [m_rd m_buf m_bad m_wr].
    split; auto. split; [rewrite app_length, !firstn_length; lia|]. split; auto.
    destruct e as [r id]. destruct (write_vocabulary _ _ _ _ _ _ _ _ _ R) as (H1 & _ & H2).
    exists id. split; auto. f_equal. f_equal. apply H2. eauto.
Qed.
