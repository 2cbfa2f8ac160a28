(** * The values of a message made of parts *)
From Verif Require Import Read Write Spec WSpec Typing PropDefs MoreDefs MoreSpec SplitSpec BytesFacts ProgFacts ReadFacts ReadMore ReadLemmas ReadFinal SeqFacts SplitFacts.
Import ListNotations.

Lemma parts_rmem c fss : Forall (fun fs => wf fs = true) fss -> NoDup (concat (map f_ids fss)) ->
  forall bs vs rest, rmem (struct_cast c (parts fss)) bs = (Ok vs, rest) <->
    exists vss, rmem (read_msgs c fss) bs = (Ok vss, rest) /\ vs = concat vss.
Proof.
  intros W N bs vs rest. rewrite (req_rmem _ _ (parts_req c fss W N)). rewrite rmem_bind_ok. split.
  - intros (vss & mid & H1 & H2). simpl in H2. injection H2 as <- <-. eauto.
  - intros (vss & H & ->). exists vss, rest. auto.
Qed.

Lemma concat_same {A} (f : fields -> nat) fss : forall (vss wss : list (list A)),
  Forall2 (fun fs vs => length vs = f fs) fss vss -> Forall2 (fun fs vs => length vs = f fs) fss wss ->
  concat vss = concat wss -> vss = wss.
Proof.
  induction fss; intros vss wss H1 H2; inversion H1; inversion H2; subst; auto. simpl. intros E.
  assert (L : length y = length y0) by congruence.
  assert (y = y0 /\ concat l' = concat l'0) as [-> E'].
  { clear -E L. revert y0 L E. induction y; intros [|b y0] L E; simpl in *; try discriminate; auto.
    injection E as -> E. injection L as L. destruct (IHy y0 L E) as [-> ?]. auto. }
  f_equal. auto.
Qed.

Lemma combine_valid c fss : forall vss, length vss = length fss ->
  Forall (fun m => valid c (fst m) (snd m)) (combine fss vss) -> Forall2 (valid c) fss vss.
Proof.
  induction fss; intros [|v vss] L H; simpl in *; try discriminate; constructor; inversion H; subst; auto.
Qed.

Lemma valid_combine c fss vss : Forall (fun fs => wf fs = true) fss -> Forall2 (valid c) fss vss ->
  map fst (combine fss vss) = fss /\ map snd (combine fss vss) = vss /\
  Forall (fun m => wf (fst m) = true /\ valid c (fst m) (snd m)) (combine fss vss) /\
  Forall byte_ok (enc_msgs (c_wire c) (combine fss vss)).
Proof.
  intros W H. induction H as [|a v fss vss Hv H IH]; simpl; [auto|].
  inversion W; subst. destruct IH as (E1 & E2 & F & B); auto. rewrite E1, E2.
  repeat split; auto. apply Forall_app. split; auto. apply valid_bytes; auto.
Qed.

Lemma parts_valid c fss vss : Forall (fun fs => wf fs = true) fss -> NoDup (concat (map f_ids fss)) ->
  Forall2 (fun fs vs => length vs = f_len fs) fss vss ->
  (valid c (parts fss) (concat vss) <-> Forall2 (valid c) fss vss).
Proof.
  intros W N L. split; intros H.
  - assert (P := parts_wf fss W N). assert (R := read_complete c _ _ [] P H).
    apply parts_rmem in R; auto. destruct R as (wss & R & E).
    apply read_sequence_sound in R; auto.
    + destruct R as (LL & V & _). apply combine_valid in V; auto.
      rewrite (concat_same f_len fss vss wss); auto.
      clear -V. induction V; constructor; auto. eapply valid_fields_length; eauto.
    + rewrite app_nil_r. apply valid_bytes; auto.
  - destruct (valid_combine c fss vss W H) as (E1 & E2 & F & B).
    assert (R := read_sequence c _ [] F). rewrite E1, E2 in R.
    apply (read_sound c (parts fss) (enc_msgs (c_wire c) (combine fss vss) ++ []) (concat vss) []).
    + apply parts_wf; auto.
    + apply Forall_app. split; [exact B|constructor].
    + apply parts_rmem; eauto.
Qed.

Lemma parts_back c msgs out rest :
  Forall (fun m => let '(fs, vs) := m in
    wf fs = true /\ typed fs = true /\ has_fields fs vs /\ clean_fields c fs = true /\
    in_sync c fs vs /\ sized_fields c fs (emitted c fs vs)) msgs ->
  NoDup (concat (map (fun m => f_ids (fst m)) msgs)) ->
  wmem (write_msgs c msgs) = (Ok tt, out) ->
  rmem (struct_cast c (parts (map fst msgs))) (out ++ rest) =
    (Ok (concat (map (fun m => emitted c (fst m) (snd m)) msgs)), rest).
Proof.
  intros F N H. apply parts_rmem.
  - clear -F. induction F as [|[fs vs] msgs Hm]; simpl; constructor; auto. tauto.
  - rewrite map_map. auto.
  - eexists. split; [apply write_read_sequence; eauto|]. auto.
Qed.
