(** * Files: proofs *)
From Coq Require Import Lia ZifyBool ZifyNat.
From Verif Require Import Read Write WSpec PropDefs Typing FileStream FileSpec.
From Verif Require Import BytesFacts SeqFacts RTrip2 Rewrite.
Local Open Scope list_scope.

Lemma overwrite_some buf p bs : bs <> [] ->
  overwrite buf p bs = firstn p (buf ++ repeat 0%Z (p - length buf)) ++ bs ++ skipn (p + length bs) buf.
Proof. destruct bs; [congruence|auto]. Qed.

Lemma padded_length (buf : list Z) p : length (firstn p (buf ++ repeat 0%Z (p - length buf))) = p.
Proof. rewrite firstn_length, app_length, repeat_length. lia. Qed.

Lemma overwrite_app buf p x y :
  overwrite (overwrite buf p x) (p + length x) y = overwrite buf p (x ++ y).
Proof.
  destruct (list_eq_dec Z.eq_dec x []) as [->|Nx]; [cbn; rewrite Nat.add_0_r; auto|].
  destruct (list_eq_dec Z.eq_dec y []) as [->|Ny]; [rewrite app_nil_r; auto|].
  assert (Nxy : x ++ y <> []) by (destruct x; cbn; congruence).
  rewrite !overwrite_some by auto. pose proof (padded_length buf p) as LP.
  set (P := firstn p (buf ++ repeat 0%Z (p - length buf))) in *.
  assert (L : length (P ++ x) = (p + length x)%nat) by (rewrite app_length; lia).
  rewrite (app_assoc P x (skipn _ _)), <- (app_assoc (P ++ x)), firstn_app, firstn_all2 by lia.
  rewrite L, Nat.sub_diag. cbn [firstn]. rewrite app_nil_r, <- !app_assoc.
  f_equal. f_equal. f_equal. rewrite app_length.
  rewrite (app_assoc P x), skipn_app, skipn_all2 by lia. cbn [app]. rewrite skipn_plus. f_equal. lia.
Qed.

Lemma granted_no_throw {E A} S alloc (p : rprog E A) : (forall n, alloc n = true) ->
  forall s o s' ev, rrun S alloc p s = (o, s', ev) -> o <> Throw.
Proof.
  intros Ha. induction p; intros s o s' ev H0; cbn [rrun] in H0; try (inversion H0; subst; discriminate).
  - destruct (i_read S s n) as [[bs|] s1]; [|inversion H0; subst; discriminate].
    destruct (rrun S alloc (k bs) s1) as [[o1 s2] ev1] eqn:Er. inversion H0; subst. eapply H; eauto.
  - rewrite Ha in H0. destruct (rrun S alloc p s) as [[o1 s2] ev1] eqn:Er. inversion H0; subst. eauto.
Qed.

Section U.
Variable undef_read : file -> Z -> option (list Z) * file.
Variable undef_write : file -> list Z -> bool * file.
Local Notation fin := (file_istream undef_read).
Local Notation fout := (file_ostream undef_write).

Lemma file_istream_run {E A} alloc (p : rprog E A) : forall buf q l o s' ev, l <> Writing ->
  rrun fin alloc p (mkFile buf q l false) = (o, s', ev) ->
  f_buf s' = buf /\ f_last s' <> Writing /\
  (o <> Throw -> fst (rmem p (skipn q buf)) = o) /\
  (forall a, o = Ok a -> f_fail s' = false /\
     (length (snd (rmem p (skipn q buf))) + f_pos s' = length (skipn q buf) + q)%nat /\
     skipn (f_pos s') buf = snd (rmem p (skipn q buf))).
Proof.
  clear undef_write.
  induction p; intros buf q l o s' ev Hl H0; cbn [rrun rmem] in *;
    try (inversion H0; subst; cbn; repeat split; auto; discriminate).
  - cbn [file_istream i_read] in H0. unfold file_read in H0. cbn [f_fail f_last f_buf f_pos] in H0.
    assert (R : (match l with Writing => undef_read (mkFile buf q l false) n | _ =>
      if n <=? Z.of_nat (length (skipn q buf))
      then (Some (firstn (Z.to_nat n) (skipn q buf)), mkFile buf (q + Z.to_nat n) Reading false)
      else (None, mkFile buf (q + length (skipn q buf)) Reading true) end) =
      if n <=? Z.of_nat (length (skipn q buf))
      then (Some (firstn (Z.to_nat n) (skipn q buf)), mkFile buf (q + Z.to_nat n) Reading false)
      else (None, mkFile buf (q + length (skipn q buf)) Reading true)) by (destruct l; congruence).
    rewrite R in H0. clear R. destruct (n <=? _) eqn:En.
    + fold fin in H0. destruct (rrun fin alloc _ _) as [[o1 s1] ev1] eqn:Er. inversion H0; subst.
      apply H in Er; [|discriminate]. replace (skipn (q + Z.to_nat n) buf) with (skipn (Z.to_nat n) (skipn q buf)) in Er
        by (rewrite skipn_plus; f_equal; lia).
      destruct Er as (H1 & H2 & H3 & H4). split; auto. split; auto. split; auto.
      intros a Ha. destruct (H4 a Ha) as (P1 & P2 & P3). repeat split; auto. rewrite (skipn_length (Z.to_nat n)) in P2. lia.
    + inversion H0; subst. cbn. repeat split; auto; discriminate.
  - destruct (alloc n).
    + destruct (rrun fin alloc p _) as [[o1 s1] ev1] eqn:Er. inversion H0; subst. eauto.
    + inversion H0; subst. cbn. repeat split; auto; congruence.
Qed.

Lemma file_istream_failed {E A} alloc (p : rprog E A) : forall s o s' ev, f_fail s = true ->
  rrun fin alloc p s = (o, s', ev) -> s' = s /\ delivered ev = [].
Proof.
  clear undef_write.
  induction p; intros s o s' ev Hf H0; cbn [rrun] in *; try (inversion H0; subst; auto; fail).
  - cbn [file_istream i_read] in H0. unfold file_read in H0. rewrite Hf in H0. inversion H0; subst. auto.
  - destruct (alloc n); [|inversion H0; subst; auto].
    destruct (rrun fin alloc p _) as [[o1 s1] ev1] eqn:Er. inversion H0; subst. eapply IHp in Er; eauto.
Qed.

Lemma file_ostream_failed {E A} (p : wprog E A) : forall s o s' ch, f_fail s = true ->
  wrun fout p s = (o, s', ch) -> s' = s /\ Forall (fun w => snd w = false) ch.
Proof.
  clear undef_read.
  induction p; intros s o s' ch Hf H0; cbn [wrun] in *; try (inversion H0; subst; auto; fail).
  cbn [file_ostream o_write] in H0. unfold file_write in H0. rewrite Hf in H0. inversion H0; subst. auto.
Qed.

Lemma file_ostream_run {E A} (p : wprog E A) : forall buf q l, l <> Reading ->
  exists l' ch, wrun fout p (mkFile buf q l false) =
    (fst (wmem p), mkFile (overwrite buf q (snd (wmem p))) (q + length (snd (wmem p))) l' false, ch) /\
    l' <> Reading /\ concat (map fst ch) = snd (wmem p) /\ Forall (fun w => snd w = true) ch.
Proof.
  clear undef_read.
  induction p; intros buf q l Hl; cbn [wrun wmem fst snd];
    try (exists l, []; rewrite Nat.add_0_r; repeat split; auto; fail).
  cbn [file_ostream o_write]. unfold file_write. cbn [f_fail f_last f_buf f_pos].
  destruct (IHp (overwrite buf q bs) (q + length bs)%nat Writing) as (l' & ch & H1 & H2 & H3 & H4); [discriminate|].
  destruct (wmem p) as [o out]. cbn [fst snd] in *.
  exists l', ((bs, true) :: ch). fold fout.
  assert (W : (match l with Reading => undef_write (mkFile buf q l false) bs
    | _ => (true, mkFile (overwrite buf q bs) (q + length bs) Writing false) end) =
    (true, mkFile (overwrite buf q bs) (q + length bs) Writing false)) by (destruct l; congruence).
  rewrite W, H1, overwrite_app, app_length, Nat.add_assoc. split; auto. split; auto. cbn. rewrite H3. auto.
Qed.

Lemma overwrite_inside buf q bs :
  firstn (length bs) (skipn q (overwrite buf q bs)) = bs.
Proof.
  clear undef_read undef_write.
  destruct (list_eq_dec Z.eq_dec bs []) as [->|N]; auto.
  rewrite overwrite_some by auto. pose proof (padded_length buf q) as L.
  rewrite skipn_app, L, skipn_all2, Nat.sub_diag by lia. cbn [app skipn].
  rewrite firstn_app, firstn_all, Nat.sub_diag. cbn. apply app_nil_r.
Qed.

Lemma overwrite_view buf q bs : exists rest, skipn q (overwrite buf q bs) = bs ++ rest.
Proof.
  clear undef_read undef_write.
  exists (skipn (length bs) (skipn q (overwrite buf q bs))).
  rewrite <- (firstn_skipn (length bs) (skipn q (overwrite buf q bs))) at 1. rewrite overwrite_inside. auto.
Qed.

Lemma overwrite_outside buf q bs i : (i < q \/ q + length bs <= i)%nat -> (i < length buf)%nat ->
  nth_error (overwrite buf q bs) i = nth_error buf i.
Proof.
  clear undef_read undef_write.
  intros H Hi. destruct (list_eq_dec Z.eq_dec bs []) as [->|N]; auto.
  rewrite overwrite_some by auto. pose proof (padded_length buf q) as L. destruct H as [H|H].
  - rewrite nth_error_app1 by lia. rewrite <- (firstn_skipn q (buf ++ repeat 0%Z (q - length buf))) in L at 1.
    transitivity (nth_error (buf ++ repeat 0%Z (q - length buf)) i).
    + rewrite <- (firstn_skipn q (buf ++ repeat 0%Z (q - length buf))) at 2.
      rewrite nth_error_app1; auto. rewrite padded_length. auto.
    + rewrite nth_error_app1; auto.
  - rewrite nth_error_app2 by lia. rewrite nth_error_app2 by lia. rewrite L.
    rewrite <- (firstn_skipn (q + length bs) buf) at 2. rewrite nth_error_app2; rewrite firstn_length_le by lia; [|lia].
    f_equal. lia.
Qed.

Lemma overwrite_length buf q bs : (length buf <= length (overwrite buf q bs))%nat.
Proof.
  clear undef_read undef_write.
  destruct (list_eq_dec Z.eq_dec bs []) as [->|N]; auto.
  rewrite overwrite_some by auto. rewrite !app_length, padded_length, skipn_length. lia.
Qed.

Lemma overwrite_same buf q bs rest : skipn q buf = bs ++ rest -> overwrite buf q bs = buf.
Proof.
  clear undef_read undef_write.
  intros H. destruct (list_eq_dec Z.eq_dec bs []) as [->|N]; auto.
  rewrite overwrite_some by auto.
  assert (Q : (q < length buf)%nat).
  { pose proof (skipn_length q buf) as L. rewrite H, app_length in L. destruct bs; [congruence|cbn in L; lia]. }
  replace (q - length buf)%nat with O by lia. cbn [repeat]. rewrite app_nil_r.
  rewrite (Nat.add_comm q), <- skipn_plus, H, skipn_app, skipn_all, Nat.sub_diag. cbn [app skipn].
  rewrite <- H. apply firstn_skipn.
Qed.

(** ** Statements *)

Lemma file_written c fs vs s o s1 ch : f_fail s = false -> f_last s <> Reading ->
  wrun fout (stream_cast c fs vs) s = (o, s1, ch) ->
  wmem (stream_cast c fs vs) = (o, concat (map fst ch)) /\
  Forall (fun w => snd w = true) ch /\
  f_fail s1 = false /\ f_pos s1 = (f_pos s + length (concat (map fst ch)))%nat /\
  firstn (length (concat (map fst ch))) (skipn (f_pos s) (f_buf s1)) = concat (map fst ch) /\
  (length (f_buf s) <= length (f_buf s1))%nat /\
  (forall i, (i < f_pos s \/ f_pos s1 <= i)%nat -> (i < length (f_buf s))%nat ->
     nth_error (f_buf s1) i = nth_error (f_buf s) i).
Proof.
  clear undef_read.
  intros Hf Hl W. destruct s as [buf q l f]. cbn in Hf, Hl. subst f.
  destruct (file_ostream_run (stream_cast c fs vs) buf q l Hl) as (l' & ch' & W' & H2 & H3 & H4).
  rewrite W in W'. inversion W'; subst. cbn [f_buf f_pos f_fail]. rewrite H3.
  split; [destruct (wmem (stream_cast c fs vs)); auto|]. split; auto. split; auto. split; auto.
  split; [apply overwrite_inside|]. split; [apply overwrite_length|]. intros. apply overwrite_outside; auto.
Qed.

Lemma file_read_run c fs alloc s o s1 ev : f_fail s = false -> f_last s <> Writing ->
  rrun fin alloc (struct_cast c fs) s = (o, s1, ev) -> o <> Throw ->
  o = fst (rmem (struct_cast c fs) (skipn (f_pos s) (f_buf s))) /\ f_buf s1 = f_buf s /\
  (forall vs, o = Ok vs -> f_fail s1 = false /\
     skipn (f_pos s1) (f_buf s1) = snd (rmem (struct_cast c fs) (skipn (f_pos s) (f_buf s)))).
Proof.
  clear undef_write.
  intros Hf Hl R Ht. destruct s as [buf q l f]. cbn in Hf, Hl. subst f. cbn [f_pos f_buf].
  apply file_istream_run in R; auto. destruct R as (H1 & H2 & H3 & H4). rewrite H1.
  split; [symmetry; auto|]. split; auto. intros vs E. destruct (H4 vs E) as (P1 & P2 & P3). auto.
Qed.

Lemma file_round_trip c fs vs s s1 ch alloc o s2 ev :
  wf fs = true -> typed fs = true -> has_fields fs vs -> clean_fields c fs = true ->
  in_sync c fs vs -> sized_fields c fs (emitted c fs vs) ->
  f_fail s = false -> f_last s <> Reading ->
  wrun fout (stream_cast c fs vs) s = (Ok tt, s1, ch) ->
  rrun fin alloc (struct_cast c fs) (seekg (f_pos s) s1) = (o, s2, ev) -> o <> Throw ->
  o = Ok (emitted c fs vs) /\ f_fail s2 = false /\ f_buf s2 = f_buf s1 /\ f_pos s2 = f_pos s1.
Proof.
  intros Hw Hty Hv Hc Hs Hz Hf Hl W R Ht. destruct s as [buf q l f]. cbn in Hf, Hl. subst f. cbn [f_pos] in R.
  destruct (file_ostream_run (stream_cast c fs vs) buf q l Hl) as (l' & ch' & W' & _ & _ & _).
  rewrite W in W'. destruct (wmem (stream_cast c fs vs)) as [o' out] eqn:Em. cbn [fst snd] in W'.
  inversion W'; subst. unfold seekg in R. cbn [f_fail f_buf] in R.
  apply file_istream_run in R; [|discriminate]. destruct R as (H1 & _ & H3 & H4).
  destruct (overwrite_view buf q out) as [rest V]. rewrite V in H3, H4.
  destruct (round_trip_full c fs vs out rest Hw Hty Hv Hc Hs Hz Em) as [RT _]. rewrite RT in H3, H4.
  cbn [fst snd f_buf f_pos] in *. specialize (H3 Ht). destruct (H4 _ (eq_sym H3)) as (P1 & P2 & P3).
  repeat split; auto. rewrite app_length in P2. lia.
Qed.

Lemma file_rewrite c fs alloc s vs s1 ev o s2 ch :
  wf fs = true -> typed fs = true -> reversible c fs = true -> Forall byte_ok (f_buf s) ->
  f_fail s = false -> f_last s <> Writing ->
  rrun fin alloc (struct_cast c fs) s = (Ok vs, s1, ev) ->
  wrun fout (stream_cast c fs vs) (seekg (f_pos s) s1) = (o, s2, ch) ->
  o = Ok tt /\ f_fail s2 = false /\ f_buf s2 = f_buf s /\ f_pos s2 = f_pos s1.
Proof.
  intros Hw Hty Hr Hb Hf Hl R W. destruct s as [buf q l f]. cbn in Hf, Hl, Hb. subst f. cbn [f_pos f_buf] in *.
  apply file_istream_run in R; auto. destruct R as (H1 & H2 & H3 & H4).
  assert (H3' := H3 ltac:(discriminate)). clear H3. rename H3' into H3.
  destruct (H4 vs eq_refl) as (P1 & P2 & P3). destruct (rmem (struct_cast c fs) (skipn q buf)) as [o' rest] eqn:Em.
  cbn [fst snd] in *. subst o'.
  destruct (read_then_write c fs (skipn q buf) vs rest Hw Hty Hr) as (used & E1 & E2); auto.
  { apply Forall_skipn; auto. }
  unfold seekg in W. rewrite P1, H1 in W.
  destruct (file_ostream_run (stream_cast c fs vs) buf q Positioned) as (l' & ch' & W' & _ & _ & _); [discriminate|].
  rewrite W in W'. rewrite E2 in W'. cbn [fst snd] in W'. inversion W'; subst. cbn.
  repeat split; auto; [eapply overwrite_same; eauto|]. rewrite E1, app_length in P2. lia.
Qed.

Lemma file_write_all c fs vss : forall buf q l s1, l <> Reading ->
  write_all undef_write c fs vss (mkFile buf q l false) = Some s1 ->
  exists outs, Forall2 (fun vs out => wmem (stream_cast c fs vs) = (Ok tt, out)) vss outs /\
    exists l', s1 = mkFile (overwrite buf q (concat outs)) (q + length (concat outs)) l' false.
Proof.
  clear undef_read.
  induction vss as [|vs vss IH]; intros buf q l s1 Hl H; cbn [write_all] in H.
  - inversion H; subst. exists []. split; [constructor|]. exists l. cbn. rewrite Nat.add_0_r. auto.
  - destruct (file_ostream_run (stream_cast c fs vs) buf q l Hl) as (l' & ch' & W' & Hl' & _ & _).
    rewrite W' in H. destruct (wmem (stream_cast c fs vs)) as [o out] eqn:Em. cbn [fst snd] in H.
    destruct o; try discriminate. apply IH in H; auto. destruct H as (outs & F & l2 & E). exists (out :: outs).
    split; [constructor; auto; destruct a; auto|]. exists l2. cbn [concat]. rewrite E, overwrite_app, app_length, Nat.add_assoc. auto.
Qed.

Lemma file_read_all c fs alloc vss outs rest :
  wf fs = true -> typed fs = true -> clean_fields c fs = true -> (forall n, alloc n = true) ->
  Forall (fun vs => has_fields fs vs /\ in_sync c fs vs /\ sized_fields c fs (emitted c fs vs)) vss ->
  Forall2 (fun vs out => wmem (stream_cast c fs vs) = (Ok tt, out)) vss outs ->
  forall buf q l, l <> Writing -> skipn q buf = concat outs ++ rest ->
  exists s2, read_all undef_read alloc c fs (length vss) (mkFile buf q l false) = Some (map (emitted c fs) vss, s2) /\
    f_fail s2 = false /\ f_buf s2 = buf /\ f_pos s2 = (q + length (concat outs))%nat.
Proof.
  clear undef_write.
  intros Hw Hty Hc Ha Hv F. induction F as [|vs out vss outs Em F IH]; intros buf q l Hl V.
  - cbn. eexists. split; [reflexivity|]. cbn. rewrite Nat.add_0_r. auto.
  - inversion Hv; subst. destruct H1 as (B1 & B2 & B3). cbn [concat] in V. rewrite <- app_assoc in V.
    cbn [length read_all map].
    destruct (rrun fin alloc (struct_cast c fs) (mkFile buf q l false)) as [[o s1] ev] eqn:R.
    assert (NT : o <> Throw) by (eapply granted_no_throw; eauto).
    apply file_istream_run in R; auto. destruct R as (H1 & H4 & H5 & H6). specialize (H5 NT).
    destruct (round_trip_full c fs vs out (concat outs ++ rest) Hw Hty B1 Hc B2 B3 Em) as [RT _].
    rewrite V, RT in H5, H6. cbn [fst snd] in *. subst o. destruct (H6 _ eq_refl) as (P1 & P2 & P3).
    destruct s1 as [buf1 q1 l1 f1]. cbn in *. subst buf1 f1.
    destruct (IH H2 buf q1 l1) as (s2 & E1 & E2 & E3 & E4); auto. rewrite E1. exists s2.
    repeat split; auto. rewrite E4, app_length. rewrite !app_length in P2. lia.
Qed.

Lemma file_messages c fs alloc vss s s1 :
  wf fs = true -> typed fs = true -> clean_fields c fs = true -> (forall n, alloc n = true) ->
  Forall (fun vs => has_fields fs vs /\ in_sync c fs vs /\ sized_fields c fs (emitted c fs vs)) vss ->
  f_fail s = false -> f_last s <> Reading ->
  write_all undef_write c fs vss s = Some s1 ->
  exists s2, read_all undef_read alloc c fs (length vss) (seekg (f_pos s) s1) = Some (map (emitted c fs) vss, s2) /\
    f_fail s2 = false /\ f_buf s2 = f_buf s1 /\ f_pos s2 = f_pos s1.
Proof.
  intros Hw Hty Hc Ha Hv Hf Hl W. destruct s as [buf q l f]. cbn in Hf, Hl. subst f.
  apply file_write_all in W; auto. destruct W as (outs & F & l' & ->). cbn [seekg f_fail f_buf f_pos].
  destruct (overwrite_view buf q (concat outs)) as [rest V].
  unfold seekg. cbn [f_fail f_buf]. eapply file_read_all; eauto. discriminate.
Qed.

Lemma file_retry c fs alloc s o s1 ev p : f_fail s = false -> f_last s <> Writing ->
  rrun fin alloc (struct_cast c fs) s = (o, s1, ev) ->
  seekg p (clear s1) = seekg p s.
Proof.
  clear undef_write.
  intros Hf Hl R. destruct s as [buf q l f]. cbn in Hf, Hl. subst f.
  apply file_istream_run in R; auto. destruct R as (H1 & _). unfold seekg, clear. cbn. rewrite H1. auto.
Qed.
End U.
