(** Lemmas behind the reader properties. *)
From Coq Require Import ZifyBool ZifyNat.
From Verif Require Import Read Spec PropDefs BytesFacts ProgFacts ReadFacts ReadMore.

(** ** Encodings of valid values are bytes *)

Lemma flat_map_bytes {A} (f : A -> list Z) l :
  Forall (fun x => Forall byte_ok (f x)) l -> Forall byte_ok (flat_map f l).
Proof. induction 1; simpl; auto. apply Forall_app; auto. Qed.

Lemma enc_bytes :
  (forall t, forall c E v, valid_ty c E t v -> Forall byte_ok (enc_ty (c_wire c) t v)) /\
  (forall fs, forall c E vs, valid_fields c E fs vs -> Forall byte_ok (enc_fields (c_wire c) fs vs)) /\
  (forall al, forall c E i v, valid_alts c E al i v -> Forall byte_ok (enc_alts (c_wire c) al i v)).
Proof.
  apply schema_mutind.
  - intros t n c E v [H _]. simpl. apply Forall_firstn, enc_ct_bytes; auto.
  - intros elt l b c E v (xs & -> & H & _). simpl. apply flat_map_bytes.
    eapply Forall_impl; [|exact H]. intros; apply enc_ct_bytes; auto.
  - intros fs IH c E v (vs & -> & H). simpl. eauto.
  - intros n fs IH c E v (xs & -> & _ & H). simpl. apply flat_map_bytes.
    eapply Forall_impl; [|exact H]. intros x (vs & -> & Hx). eauto.
  - intros fs IH recsz l b c E v (xs & -> & H & _). simpl. apply flat_map_bytes.
    eapply Forall_impl; [|exact H]. intros x (vs & -> & Hx). eauto.
  - intros b IH p ids c E v (args & _ & H). destruct (p args).
    + destruct H as (v' & -> & H). simpl. eauto.
    + subst. simpl. auto.
  - intros g al IH c E v (i & v' & -> & _ & H). simpl. eauto.
  - intros c E [|v vs]; simpl; [auto|tauto].
  - intros id t IHt k fs IHfs c E [|v vs]; simpl; [tauto|]. intros (H1 & _ & H2).
    apply Forall_app; eauto.
  - intros c E i v []. 
  - intros t IHt k al IHal c E [|i] v; simpl; [intros [H _]; eauto|eauto].
Qed.

Lemma valid_bytes c fs vs : valid c fs vs -> Forall byte_ok (enc_fields (c_wire c) fs vs).
Proof. apply enc_bytes. Qed.

(** ** Constraints *)

Lemma valid_sat :
  (forall t, forall c E v, valid_ty c E t v -> sat_ty t v) /\
  (forall fs, forall c E vs, valid_fields c E fs vs -> sat_fields fs vs) /\
  (forall al, forall c E i v, valid_alts c E al i v -> sat_alts al i v).
Proof.
  apply schema_mutind.
  - intros; exact I.
  - intros elt l b c E v _. simpl. destruct v; auto.
  - intros fs IH c E v (vs & -> & H). simpl. eauto.
  - intros n fs IH c E v (xs & -> & _ & H). simpl.
    eapply Forall_impl; [|exact H]. intros x (vs & -> & Hx). eauto.
  - intros fs IH recsz l b c E v (xs & -> & H & _). simpl.
    eapply Forall_impl; [|exact H]. intros x (vs & -> & Hx). eauto.
  - intros b IH p ids c E v (args & _ & H). destruct (p args).
    + destruct H as (v' & -> & H). simpl. eauto.
    + subst. simpl. auto.
  - intros g al IH c E v (i & v' & -> & _ & H). simpl. eauto.
  - intros c E [|v vs]; simpl; tauto.
  - intros id t IHt k fs IHfs c E [|v vs]; simpl; [tauto|]. intros (H1 & H2 & H3). eauto.
  - intros c E i v [].
  - intros t IHt k al IHal c E [|i] v; simpl; [intros [H H']; eauto|eauto].
Qed.

(** ** Truncation, trailing bytes *)

Lemma struct_cast_truncate c fs bs vs n : wf fs = true ->
  rmem (struct_cast c fs) bs = (Ok vs, []) -> (n < length bs)%nat ->
  exists id rest, In id (f_ids fs) /\
    rmem (struct_cast c fs) (firstn n bs) = (Err (BufferExhaustion, id), rest).
Proof.
  intros Hwf H Hn.
  destruct (rmem_truncate _ _ _ _ _ (struct_cast_all c fs Hwf) bs vs [] n H) as ([r id] & rest & H1 & H2 & H3).
  - simpl. lia.
  - simpl in *. subst. eauto.
Qed.

Lemma struct_cast_trailing c fs used rest vs x :
  rmem (struct_cast c fs) (used ++ rest) = (Ok vs, rest) ->
  rmem (struct_cast c fs) (used ++ x) = (Ok vs, x).
Proof.
  set (p := struct_cast c fs). clearbody p. revert used.
  induction p; intros used; simpl; intros Hr; try discriminate.
  - inversion Hr as [[Ha Hb]]. apply (f_equal (@length Z)) in Hb.
    rewrite app_length in Hb. destruct used; [auto|simpl in Hb; lia].
  - destruct (Z.leb_spec n (Z.of_nat (length (used ++ rest)))); [|discriminate].
    rewrite app_length in *.
    assert (Hle : n <= Z.of_nat (length used)).
    { destruct (Z.le_gt_cases n (Z.of_nat (length used))); auto. exfalso.
      pose proof (rmem_suffix _ _ _ _ Hr) as [u Hu].
      apply (f_equal (@length Z)) in Hu. rewrite skipn_length, !app_length in Hu. lia. }
    destruct (Z.leb_spec n (Z.of_nat (length used + length x))); [|lia].
    rewrite firstn_app, skipn_app in *.
    replace (Z.to_nat n - length used)%nat with 0%nat in * by lia.
    simpl in *. rewrite app_nil_r in *. auto.
  - auto.
Qed.

Lemma struct_cast_trailing_err c fs bs r id rest x : wf fs = true ->
  rmem (struct_cast c fs) bs = (Err (r, id), rest) -> r <> BufferExhaustion ->
  rmem (struct_cast c fs) (bs ++ x) = (Err (r, id), rest ++ x).
Proof.
  intros Hwf H Hr. eapply rmem_app_err; [apply (struct_cast_all c fs Hwf)|auto|].
  simpl. tauto.
Qed.

(** ** A field after its predecessors *)

Lemma rrun_read_fields_length c S alloc fs : forall e s vs s' ev,
  rrun S alloc (read_fields c e fs) s = (Ok vs, s', ev) -> length vs = f_len fs.
Proof.
  induction fs; intros e s vs s' ev; cbn [read_fields].
  - simpl. intros H; inversion H; auto.
  - rewrite rrun_bind.
    destruct (rrun S alloc (rmaperr _ _) s) as [[[v|r0| | |] s1] ev1]; try discriminate.
    rewrite rrun_bind.
    destruct (rrun S alloc (read_fields _ _ _) s1) as [[[ws|r0| | |] s2] ev2] eqn:E; try discriminate.
    simpl. intros H; inversion H; subst. simpl. f_equal. eauto.
Qed.

Lemma lookup_updates_out fs : forall e vs id, ~ In id (f_ids fs) ->
  lookup (updates e fs vs) id = lookup e id.
Proof.
  induction fs; intros e [|v vs] id' Hn; simpl in *; auto.
  rewrite IHfs by tauto. apply lookup_update_other. intros ->. tauto.
Qed.

Lemma lookup_updates fs : forall e vs id, NoDup (f_ids fs) -> dom fs e ->
  length vs = f_len fs -> In id (f_ids fs) ->
  lookup (updates e fs vs) id = lookup (mk_env fs vs) id.
Proof.
  induction fs; intros e [|v vs] id' Hn Hd Hl Hin; simpl in *; try discriminate; try tauto.
  inversion Hn; subst. destruct (String.eqb_spec id id').
  - subst. rewrite lookup_updates_out by auto. apply lookup_update_same.
    apply Hd. left; auto.
  - destruct Hin as [->|Hin]; [congruence|]. apply IHfs; auto.
    apply dom_update. intros x Hx. apply Hd. right; auto.
Qed.

Lemma lookup_mk_env_app fs gs vs ws id : length vs = f_len fs -> In id (f_ids fs) ->
  lookup (mk_env (f_app fs gs) (vs ++ ws)) id = lookup (mk_env fs vs) id.
Proof.
  revert vs. induction fs; intros [|v vs] Hl Hin; simpl in *; try discriminate; try tauto.
  destruct (String.eqb_spec id0 id); auto. destruct Hin as [->|Hin]; [congruence|]. auto.
Qed.

Lemma rrun_field c S alloc pre id t k post s vs s1 ev1 :
  wf (f_app pre (FCons id t k post)) = true ->
  rrun S alloc (struct_cast c pre) s = (Ok vs, s1, ev1) ->
  exists e2,
  rrun S alloc (struct_cast c (f_app pre (FCons id t k post))) s =
  match rrun S alloc (rbind (read_ty c (mk_env pre vs) t) (rcheck k)) s1 with
  | (Ok v, s2, ev2) =>
      match rrun S alloc (read_fields c (update e2 id v) post) s2 with
      | (Ok ws, s3, ev3) => (Ok (vs ++ v :: ws), s3, ev1 ++ ev2 ++ ev3)
      | (Err e, s3, ev3) => (Err e, s3, ev1 ++ ev2 ++ ev3)
      | (UB, s3, ev3) => (UB, s3, ev1 ++ ev2 ++ ev3)
      | (Stuck, s3, ev3) => (Stuck, s3, ev1 ++ ev2 ++ ev3)
      | (Throw, s3, ev3) => (Throw, s3, ev1 ++ ev2 ++ ev3)
      end
  | (Err r, s2, ev2) => (Err (r, id), s2, ev1 ++ ev2)
  | (UB, s2, ev2) => (UB, s2, ev1 ++ ev2)
  | (Stuck, s2, ev2) => (Stuck, s2, ev1 ++ ev2)
  | (Throw, s2, ev2) => (Throw, s2, ev1 ++ ev2)
  end.
Proof.
  intros Hwf H1. set (fs := f_app pre (FCons id t k post)) in *.
  exists (updates (mk_env fs (default_fields fs)) pre vs).
  rewrite (req_rrun S alloc _ _ (struct_cast_app c pre (FCons id t k post) Hwf)).
  rewrite rrun_bind, H1. fold fs.
  assert (Hl := rrun_read_fields_length _ _ _ _ _ _ _ _ _ H1).
  unfold wf in Hwf. apply wf_fields_app in Hwf. destruct Hwf as [W1 W2].
  cbn [wf_fields] in W2. apply andb_true_iff in W2. destruct W2 as [W2 W4].
  apply andb_true_iff in W2. destruct W2 as [W2 W3].
  cbn [read_fields].
  rewrite (read_ty_agree c (rev (f_ids pre) ++ []) _ (mk_env pre vs) t W3).
  - set (q := rbind (read_ty c (mk_env pre vs) t) (rcheck k)).
    rewrite !rrun_bind, rrun_maperr.
    destruct (rrun S alloc q s1) as [[[v|r0| | |] s2] ev2]; auto.
    rewrite rrun_bind.
    destruct (rrun S alloc (read_fields _ _ post) s2) as [[[ws|r0| | |] s3] ev3];
      simpl; rewrite ?app_nil_r, ?app_assoc; auto.
  - intros x Hx. apply memb_In in Hx. rewrite app_nil_r in Hx. apply in_rev in Hx.
    apply lookup_updates; auto.
    + apply wf_fields_ids in W1. tauto.
    + eapply (dom_app_l pre (FCons id t k post)). apply dom_mk_env, default_fields_length.
Qed.

Lemma rrun_last_field c S alloc pre id t k s vs s1 ev1 :
  wf (f_app pre (FCons id t k FNil)) = true ->
  rrun S alloc (struct_cast c pre) s = (Ok vs, s1, ev1) ->
  rrun S alloc (struct_cast c (f_app pre (FCons id t k FNil))) s =
  match rrun S alloc (rbind (read_ty c (mk_env pre vs) t) (rcheck k)) s1 with
  | (Ok v, s2, ev2) => (Ok (vs ++ [v]), s2, ev1 ++ ev2)
  | (Err r, s2, ev2) => (Err (r, id), s2, ev1 ++ ev2)
  | (UB, s2, ev2) => (UB, s2, ev1 ++ ev2)
  | (Stuck, s2, ev2) => (Stuck, s2, ev1 ++ ev2)
  | (Throw, s2, ev2) => (Throw, s2, ev1 ++ ev2)
  end.
Proof.
  intros Hwf H1. destruct (rrun_field _ _ _ _ _ _ _ _ _ _ _ _ Hwf H1) as [e2 ->].
  destruct (rrun S alloc (rbind _ _) s1) as [[[v|r0| | |] s2] ev2]; auto.
  simpl. rewrite app_nil_r. auto.
Qed.

(** ** Ceilings *)

Lemma len_allowed_of c b esz n : 0 < esz ->
  len_allowed (ceiling c b) esz (Z.of_nat n) = (Z.of_nat n * esz <=? ceiling_of c b).
Proof.
  intros He. apply eq_iff_eq_true. rewrite (len_allowed_iff c b esz n He), Z.leb_le.
  reflexivity.
Qed.

(** What a container field does first: refuse, or allocate exactly its size. *)
Lemma var_first c S alloc elt l b e n s : ct_wf elt = true -> len_is c e l n ->
  let sz := Z.of_nat n * Z.of_nat (csize elt) in
  (ceiling_of c b < sz ->
     rrun S alloc (read_ty c e (FVar elt l b)) s = (Err ExcessiveLength, s, [])) /\
  (sz <= ceiling_of c b -> exists o s' ev,
     rrun S alloc (read_ty c e (FVar elt l b)) s = (o, s', EvAlloc sz :: ev) /\
     o <> Err ExcessiveLength).
Proof.
  intros Hwf Hl sz. cbn [read_ty]. rewrite (deduce_len_complete _ _ _ _ Hl).
  unfold read_var. pose proof (csize_pos _ Hwf).
  rewrite len_allowed_of by lia. fold sz. split; intros Hs.
  - destruct (Z.leb_spec sz (ceiling_of c b)); [lia|reflexivity].
  - destruct (Z.leb_spec sz (ceiling_of c b)); [|lia].
    simpl. fold sz. destruct (alloc sz); [|do 3 eexists; split; [reflexivity|discriminate]].
    set (p := rbind _ _).
    destruct (rrun S alloc p s) as [[o s'] ev] eqn:Er. do 3 eexists; split; [reflexivity|].
    assert (Hall : rall (fun r => False) (fun r => r = BufferExhaustion) (fun _ => True) (fun _ => True) p).
    { apply rall_bind.
      - unfold read_raw. destruct (c_cx c).
        + apply rall_bind; [|simpl; auto]. apply rall_rrep. simpl. auto.
        + simpl. auto.
      - intros mem. destruct (sequence _); simpl; auto. }
    destruct (rrun_all _ _ _ _ S alloc p Hall _ _ _ _ Er) as (_ & _ & He).
    intros ->. destruct (He _ eq_refl) as [[[] _]|[Hx _]]. discriminate.
Qed.

Lemma vec_first c S alloc fs recsz l b e n s : 0 < recsz -> len_is c e l n ->
  let sz := Z.of_nat n * recsz in
  (ceiling_of c b < sz ->
     rrun S alloc (read_ty c e (FVecRec fs recsz l b)) s = (Err ExcessiveLength, s, [])) /\
  (sz <= ceiling_of c b -> exists o s' ev,
     rrun S alloc (read_ty c e (FVecRec fs recsz l b)) s = (o, s', EvAlloc sz :: ev)).
Proof.
  intros Hr Hl sz. cbn [read_ty]. rewrite (deduce_len_complete _ _ _ _ Hl).
  rewrite len_allowed_of by lia. fold sz. split; intros Hs.
  - destruct (Z.leb_spec sz (ceiling_of c b)); [lia|reflexivity].
  - destruct (Z.leb_spec sz (ceiling_of c b)); [|lia].
    cbn [rrun]. fold sz. destruct (alloc sz); [|eauto].
    destruct (rrun S alloc _ s) as [[o s'] ev]. eauto.
Qed.

Lemma rrun_check_none S alloc (p : rprog reason val) s :
  rrun S alloc (rbind p (rcheck CNone)) s = rrun S alloc p s.
Proof.
  rewrite rrun_bind. destruct (rrun S alloc p s) as [[[v|r0| | |] s2] ev2]; auto.
  simpl. rewrite app_nil_r. auto.
Qed.

Lemma wf_field pre id t k post : wf (f_app pre (FCons id t k post)) = true ->
  exists seen, wf_ty seen t = true.
Proof.
  intros H. unfold wf in H. apply wf_fields_app in H. destruct H as [_ H].
  cbn [wf_fields] in H. apply andb_true_iff in H. destruct H as [H _].
  apply andb_true_iff in H. destruct H as [_ H]. eauto.
Qed.

Lemma excessive_var c S alloc pre id elt l b k post s vs s1 ev1 n :
  wf (f_app pre (FCons id (FVar elt l b) k post)) = true ->
  rrun S alloc (struct_cast c pre) s = (Ok vs, s1, ev1) ->
  len_is c (mk_env pre vs) l n ->
  (ceiling_of c b < Z.of_nat n * Z.of_nat (csize elt) ->
   rrun S alloc (struct_cast c (f_app pre (FCons id (FVar elt l b) k post))) s =
     (Err (ExcessiveLength, id), s1, ev1)) /\
  (Z.of_nat n * Z.of_nat (csize elt) <= ceiling_of c b ->
   exists o s' ev,
   rrun S alloc (struct_cast c (f_app pre (FCons id (FVar elt l b) k post))) s =
     (o, s', ev1 ++ EvAlloc (Z.of_nat n * Z.of_nat (csize elt)) :: ev) /\
   o <> Err (ExcessiveLength, id)).
Proof.
  intros Hwf H1 Hl. destruct (wf_field _ _ _ _ _ Hwf) as [seen Ht].
  cbn [wf_ty] in Ht. apply andb_true_iff in Ht. destruct Ht as [Hwe _].
  destruct (rrun_field _ _ _ _ _ _ _ _ _ _ _ _ Hwf H1) as [e2 ->].
  destruct (var_first c S alloc elt l b (mk_env pre vs) n s1 Hwe Hl) as [Hover Hunder].
  split; intros Hs.
  - rewrite rrun_bind, (Hover Hs), app_nil_r. auto.
  - destruct (Hunder Hs) as (o & s' & ev & Hr & Ho). rewrite rrun_bind, Hr.
    destruct o as [v|r| | |].
    + unfold rcheck in *.
      destruct (check k v) eqn:Ek; simpl; rewrite ?app_nil_r;
        try (do 3 eexists; split; [reflexivity|discriminate]).
      destruct (rrun S alloc (read_fields c (update e2 id v) post) s')
        as [[[ws|[r0 id0]| | |] s3] ev3] eqn:Ep;
        simpl; do 3 eexists; (split; [reflexivity|]); try discriminate.
      intros Heq. inversion Heq; subst.
      unfold wf in Hwf. apply wf_fields_app in Hwf. destruct Hwf as [_ Hwf].
      cbn [wf_fields] in Hwf. apply andb_true_iff in Hwf. destruct Hwf as [_ Hwf].
      destruct reader_all as (_ & Hf & _).
      pose proof (rrun_all _ _ _ _ S alloc _ (Hf post c _ (update e2 id v) Hwf) _ _ _ _ Ep) as (_ & _ & He).
      apply wf_fields_ids in Hwf. destruct Hwf as [_ Hwf].
      destruct (He _ eq_refl) as [[[_ Hin] _]|[[_ Hin] _]]; apply Hwf in Hin; apply Hin; left; auto.
    + do 3 eexists; split; [reflexivity|]. congruence.
    + do 3 eexists; split; [reflexivity|discriminate].
    + do 3 eexists; split; [reflexivity|discriminate].
    + do 3 eexists; split; [reflexivity|discriminate].
Qed.

Lemma excessive_vec c S alloc pre id fs recsz l b k post s vs s1 ev1 n :
  wf (f_app pre (FCons id (FVecRec fs recsz l b) k post)) = true ->
  rrun S alloc (struct_cast c pre) s = (Ok vs, s1, ev1) ->
  len_is c (mk_env pre vs) l n ->
  (ceiling_of c b < Z.of_nat n * recsz ->
   rrun S alloc (struct_cast c (f_app pre (FCons id (FVecRec fs recsz l b) k post))) s =
     (Err (ExcessiveLength, id), s1, ev1)) /\
  (Z.of_nat n * recsz <= ceiling_of c b ->
   exists o s' ev,
   rrun S alloc (struct_cast c (f_app pre (FCons id (FVecRec fs recsz l b) k post))) s =
     (o, s', ev1 ++ EvAlloc (Z.of_nat n * recsz) :: ev)).
Proof.
  intros Hwf H1 Hl. destruct (wf_field _ _ _ _ _ Hwf) as [seen Ht].
  cbn [wf_ty] in Ht. apply andb_true_iff in Ht. destruct Ht as [Ht _].
  apply andb_true_iff in Ht. destruct Ht as [_ Ht]. apply Z.ltb_lt in Ht.
  destruct (rrun_field _ _ _ _ _ _ _ _ _ _ _ _ Hwf H1) as [e2 ->].
  destruct (vec_first c S alloc fs recsz l b (mk_env pre vs) n s1 Ht Hl) as [Hover Hunder].
  split; intros Hs.
  - rewrite rrun_bind, (Hover Hs), app_nil_r. auto.
  - destruct (Hunder Hs) as (o & s' & ev & Hr). rewrite rrun_bind, Hr.
    destruct o as [v|r| | |]; try (do 3 eexists; reflexivity).
    unfold rcheck in *.
    destruct (check k v) eqn:Ek; simpl; rewrite ?app_nil_r; try (do 3 eexists; reflexivity).
    destruct (rrun S alloc (read_fields c (update e2 id v) post) s')
        as [[[ws|[r0 id0]| | |] s3] ev3] eqn:Ep; do 3 eexists; reflexivity.
Qed.

(** ** Optionals, variances, records *)

Lemma on_last_app {E} f vs v : on_last f (Ok (vs ++ [v]) : outcome E _) = Ok (vs ++ [f v]).
Proof. simpl. rewrite removelast_last, last_last. auto. Qed.

Lemma wf_change_last pre id t k t' k' :
  wf (f_app pre (FCons id t k FNil)) = true ->
  (forall seen, wf_ty seen t = true -> wf_ty seen t' = true) ->
  wf (f_app pre (FCons id t' k' FNil)) = true.
Proof.
  unfold wf. generalize (@nil ident) as seen. induction pre; intros seen H Ht.
  - cbn [f_app wf_fields] in *. rewrite !andb_true_iff in *. intuition.
  - cbn [f_app wf_fields] in *. rewrite !andb_true_iff in *. intuition.
Qed.

Lemma maybe_read c S alloc pre id b p ids s vs s1 ev1 args :
  wf (f_app pre (FCons id (FMaybe b p ids) CNone FNil)) = true ->
  rrun S alloc (struct_cast c pre) s = (Ok vs, s1, ev1) ->
  lookups (mk_env pre vs) ids = Some args ->
  rrun S alloc (struct_cast c (f_app pre (FCons id (FMaybe b p ids) CNone FNil))) s =
  if p args then
    match rrun S alloc (struct_cast c (f_app pre (FCons id b CNone FNil))) s with
    | (o, s2, ev2) => (on_last VSome o, s2, ev2)
    end
  else (Ok (vs ++ [VNone]), s1, ev1).
Proof.
  intros Hwf H1 Hl.
  assert (Hwf' : wf (f_app pre (FCons id b CNone FNil)) = true).
  { eapply wf_change_last; [exact Hwf|]. intros seen. cbn [wf_ty].
    rewrite andb_true_iff. tauto. }
  rewrite (rrun_last_field _ _ _ _ _ _ _ _ _ _ _ Hwf H1).
  rewrite (rrun_last_field _ _ _ _ _ _ _ _ _ _ _ Hwf' H1).
  rewrite !rrun_check_none. cbn [read_ty]. rewrite Hl. destruct (p args).
  - rewrite rrun_bind. destruct (rrun S alloc (read_ty c (mk_env pre vs) b) s1)
      as [[[v|r0| | |] s2] ev2]; auto. rewrite on_last_app. simpl. rewrite app_nil_r. auto.
  - simpl. rewrite app_nil_r. auto.
Qed.

Lemma wf_alts_nth seen al : forall i t k, wf_alts seen al = true -> a_nth i al = Some (t, k) ->
  wf_ty seen t = true.
Proof.
  induction al; intros [|i] t' k' Hw Hn; simpl in *; try discriminate;
    apply andb_true_iff in Hw; destruct Hw.
  - inversion Hn; subst; auto.
  - eauto.
Qed.

Lemma read_alts_nth c e al : forall i t k, a_nth i al = Some (t, k) ->
  read_alts c e al i = rbind (read_ty c e t) (rcheck k).
Proof.
  induction al; intros [|i] t' k' Hn; simpl in *; try discriminate; auto.
  inversion Hn; subst; auto.
Qed.

Lemma union_read c S alloc pre id g al s vs s1 ev1 :
  wf (f_app pre (FCons id (FUnion g al) CNone FNil)) = true ->
  rrun S alloc (struct_cast c pre) s = (Ok vs, s1, ev1) ->
  (forall i t k, selects (mk_env pre vs) g i -> a_nth i al = Some (t, k) ->
     rrun S alloc (struct_cast c (f_app pre (FCons id (FUnion g al) CNone FNil))) s =
     match rrun S alloc (struct_cast c (f_app pre (FCons id t k FNil))) s with
     | (o, s2, ev2) => (on_last (VAlt i) o, s2, ev2)
     end) /\
  ((exists r, deduce_type (mk_env pre vs) g = Some r) ->
   (forall i, ~ selects (mk_env pre vs) g i) ->
     rrun S alloc (struct_cast c (f_app pre (FCons id (FUnion g al) CNone FNil))) s =
     (Err (TypeDeductionFailure, id), s1, ev1)).
Proof.
  intros Hwf H1. split.
  - intros i t k Hs Hn.
    assert (Hwf' : wf (f_app pre (FCons id t k FNil)) = true).
    { eapply wf_change_last; [exact Hwf|]. intros seen. cbn [wf_ty].
      rewrite andb_true_iff. intros [_ H]. eapply wf_alts_nth; eauto. }
    rewrite (rrun_last_field _ _ _ _ _ _ _ _ _ _ _ Hwf H1).
    rewrite (rrun_last_field _ _ _ _ _ _ _ _ _ _ _ Hwf' H1).
    rewrite rrun_check_none. cbn [read_ty].
    apply deduce_type_iff in Hs. rewrite Hs, (read_alts_nth _ _ _ _ _ _ Hn).
    rewrite rrun_bind. destruct (rrun S alloc (rbind (read_ty c (mk_env pre vs) t) (rcheck k)) s1)
      as [[[v|r0| | |] s2] ev2]; auto. rewrite on_last_app. simpl. rewrite app_nil_r. auto.
  - intros [r Hr] Hn.
    rewrite (rrun_last_field _ _ _ _ _ _ _ _ _ _ _ Hwf H1).
    rewrite rrun_check_none. cbn [read_ty]. rewrite Hr. destruct r as [i|].
    + apply deduce_type_iff in Hr. exfalso. eapply Hn; eauto.
    + simpl. rewrite app_nil_r. auto.
Qed.

(** A record read in place is the same cast on its own; the inner field name is
    replaced by the record's. *)
Lemma record_read c S alloc pre id fs s vs s1 ev1 :
  wf (f_app pre (FCons id (FStruct fs) CNone FNil)) = true ->
  rrun S alloc (struct_cast c pre) s = (Ok vs, s1, ev1) ->
  rrun S alloc (struct_cast c (f_app pre (FCons id (FStruct fs) CNone FNil))) s =
  match rrun S alloc (struct_cast c fs) s1 with
  | (Ok ws, s2, ev2) => (Ok (vs ++ [VRec ws]), s2, ev1 ++ ev2)
  | (Err e, s2, ev2) => (Err (fst e, id), s2, ev1 ++ ev2)
  | (UB, s2, ev2) => (UB, s2, ev1 ++ ev2)
  | (Stuck, s2, ev2) => (Stuck, s2, ev1 ++ ev2)
  | (Throw, s2, ev2) => (Throw, s2, ev1 ++ ev2)
  end.
Proof.
  intros Hwf H1. rewrite (rrun_last_field _ _ _ _ _ _ _ _ _ _ _ Hwf H1).
  rewrite rrun_check_none. cbn [read_ty]. fold (struct_cast c fs).
  rewrite rrun_bind, rrun_maperr.
  destruct (rrun S alloc (struct_cast c fs) s1) as [[[v|r0| | |] s2] ev2]; auto.
  simpl. rewrite app_nil_r. auto.
Qed.

(** ** Appending fields (C37) *)

Lemma append_read c S alloc fs gs s o s1 ev1 : wf (f_app fs gs) = true ->
  rrun S alloc (struct_cast c fs) s = (o, s1, ev1) ->
  match o with
  | Ok vs => exists o' s2 ev2,
      rrun S alloc (struct_cast c (f_app fs gs)) s = (o', s2, ev1 ++ ev2) /\
      (forall ws, o' = Ok ws -> exists us, ws = vs ++ us /\ length us = f_len gs) /\
      (forall r id, o' = Err (r, id) -> In id (f_ids gs))
  | _ => rrun S alloc (struct_cast c (f_app fs gs)) s = (o, s1, ev1)
  end.
Proof.
  intros Hwf H1. rewrite (req_rrun S alloc _ _ (struct_cast_app c fs gs Hwf)).
  rewrite rrun_bind, H1. destruct o; auto.
  set (e := updates _ _ _). rewrite rrun_bind.
  destruct (rrun S alloc (read_fields c e gs) s1) as [[[ws|[r0 id0]| | |] s2] ev2] eqn:E;
    simpl; rewrite ?app_nil_r; do 3 eexists; (split; [reflexivity|]);
    (split; [intros ws' Hw|intros r' id' Hw]); inversion Hw; subst.
  - eexists; split; eauto. eapply rrun_read_fields_length; eauto.
  - destruct reader_all as (_ & Hf & _). unfold wf in Hwf. apply wf_fields_app in Hwf.
    destruct Hwf as [_ Hwf].
    destruct (rrun_all _ _ _ _ S alloc _ (Hf gs c _ e Hwf) _ _ _ _ E) as (_ & _ & He).
    destruct (He _ eq_refl) as [[[_ ?] _]|[[_ ?] _]]; auto.
Qed.

(** ** A constraint on the only field (C12) *)

Lemma one_field_constraint c id t k bs v rest :
  rmem (struct_cast c (FCons id t CNone FNil)) bs = (Ok [v], rest) ->
  rmem (struct_cast c (FCons id t k FNil)) bs =
  match check k v with
  | CTrue => (Ok [v], rest)
  | CFalse => (Err (ValidationFailure, id), rest)
  | CUndef => (UB, rest)
  | CStuck => (Stuck, rest)
  end.
Proof.
  unfold struct_cast. cbn [read_fields]. set (e := mk_env _ _).
  change (mk_env (FCons id t k FNil) (default_fields (FCons id t k FNil))) with e. clearbody e.
  rewrite !rmem_bind, !rmem_maperr, !rmem_bind.
  destruct (rmem (read_ty c e t) bs) as [[w|r| | |] b1]; simpl; intros H; inversion H; subst.
  unfold rcheck. destruct (check k v); reflexivity.
Qed.

Lemma conv_id s z : sc_in s z = true -> conv s z = z.
Proof.
  destruct s as [w [|]|]; simpl; intros H.
  - pose proof (pow256_pos w).
    destruct (Z.leb_spec 0 z).
    + rewrite Z.mod_small by lia. destruct (Z.ltb_spec (2 * z) (pow256 w)); lia.
    + replace (z mod pow256 w) with (z + pow256 w).
      * destruct (Z.ltb_spec (2 * (z + pow256 w)) (pow256 w)); lia.
      * rewrite <- (Z.mod_add z 1) by lia. rewrite Z.mod_small; lia.
  - apply Z.mod_small. lia.
  - destruct (Z.eqb_spec z 0); lia.
Qed.

Lemma compare_exact c id ft n o s lit bs z rest : sc_in s z = true ->
  rmem (struct_cast c (FCons id (FFixed (TScalar ft) n) CNone FNil)) bs = (Ok [VZ z], rest) ->
  (cmp_holds o z lit ->
   rmem (struct_cast c (FCons id (FFixed (TScalar ft) n) (CCmp o s lit) FNil)) bs =
     (Ok [VZ z], rest)) /\
  (~ cmp_holds o z lit ->
   rmem (struct_cast c (FCons id (FFixed (TScalar ft) n) (CCmp o s lit) FNil)) bs =
     (Err (ValidationFailure, id), rest)).
Proof.
  intros Hs H. rewrite (one_field_constraint _ _ _ _ _ _ _ H). simpl. rewrite conv_id by auto.
  destruct (do_cmp o z lit) eqn:E; simpl; split; intros G; auto.
  - apply do_cmp_iff in E. contradiction.
  - apply do_cmp_iff in G. congruence.
Qed.

Lemma any_exact c id ft n s lits bs z rest : sc_in s z = true ->
  rmem (struct_cast c (FCons id (FFixed (TScalar ft) n) CNone FNil)) bs = (Ok [VZ z], rest) ->
  (In z lits ->
   rmem (struct_cast c (FCons id (FFixed (TScalar ft) n) (CAny s lits) FNil)) bs =
     (Ok [VZ z], rest)) /\
  (~ In z lits ->
   rmem (struct_cast c (FCons id (FFixed (TScalar ft) n) (CAny s lits) FNil)) bs =
     (Err (ValidationFailure, id), rest)).
Proof.
  intros Hs H. rewrite (one_field_constraint _ _ _ _ _ _ _ H). simpl. rewrite conv_id by auto.
  destruct (existsb (fun l => z =? l) lits) eqn:E; simpl; split; intros G; auto.
  - apply existsb_exists in E. destruct E as (x & Hx & E). apply Z.eqb_eq in E. subst. contradiction.
  - exfalso. assert (existsb (fun l => z =? l) lits = true); [|congruence].
    apply existsb_exists. exists z. split; auto. apply Z.eqb_refl.
Qed.

(** Without the side condition: equality modulo the literal's width. *)
Lemma eq_congruent c id ft n w lit bs z rest : 0 <= lit < 256 ^ Z.of_nat w ->
  rmem (struct_cast c (FCons id (FFixed (TScalar ft) n) CNone FNil)) bs = (Ok [VZ z], rest) ->
  rmem (struct_cast c (FCons id (FFixed (TScalar ft) n) (CCmp OEq (SInt w false) lit) FNil)) bs =
  (if z mod 256 ^ Z.of_nat w =? lit then Ok [VZ z] else Err (ValidationFailure, id), rest).
Proof.
  intros Hs H. rewrite (one_field_constraint _ _ _ _ _ _ _ H). simpl. unfold pow256.
  destruct (z mod 256 ^ Z.of_nat w =? lit); reflexivity.
Qed.
