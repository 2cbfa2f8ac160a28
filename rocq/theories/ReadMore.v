(** More facts about the reader: its requests and errors, prefixes of a field
    list, independence of host order and of the constexpr path. *)
From Coq Require Import ZifyBool ZifyNat.
From Verif Require Import Read Spec BytesFacts ProgFacts ReadFacts.

(** ** Requests and errors *)

Definition read_error (r : reason) : Prop :=
  r = ValidationFailure \/ r = TypeDeductionFailure \/ r = ExcessiveLength.

Definition alloc_ok (c : cfg) (cs : list (Z * option Z)) (n : Z) : Prop :=
  exists esz b len, In (esz, b) cs /\ 0 <= len < 256 ^ Z.of_nat (c_szw c) /\
    n = len * esz /\
    n <= match b with Some m => m | None => c_dmax c end mod 256 ^ Z.of_nat (c_szw c).

Definition ra {A} c cs (p : rprog reason A) : Prop :=
  rall read_error (fun r => r = BufferExhaustion) (fun n => 0 <= n) (alloc_ok c cs) p.

Lemma ra_weaken {A} c cs cs' (p : rprog reason A) :
  incl cs cs' -> ra c cs p -> ra c cs' p.
Proof.
  intros Hi. apply rall_impl; auto. intros n (esz & b & len & H & H').
  exists esz, b, len. split; auto.
Qed.

Lemma deduce_len_range c e l len : deduce_len c e l = Some len ->
  0 <= len < 256 ^ Z.of_nat (c_szw c).
Proof.
  destruct l; simpl.
  - destruct (lookup e id) as [[z| | | | | |]|]; try discriminate. intros H; inversion H; subst.
    apply to_size_range.
  - destruct (lookups e ids) as [vs|]; try discriminate. intros H; inversion H; subst.
    apply to_size_range.
Qed.

Lemma len_allowed_ceiling c b esz len : 0 < esz -> 0 <= len ->
  len_allowed (ceiling c b) esz len = true ->
  len * esz <= match b with Some m => m | None => c_dmax c end mod 256 ^ Z.of_nat (c_szw c).
Proof.
  intros He Hl H. rewrite <- (Z2Nat.id len) in H by lia.
  apply len_allowed_iff in H; auto. unfold within in H. rewrite Z2Nat.id in H; auto.
Qed.

Definition ra_ty (t : fty) : Prop := forall c seen e, wf_ty seen t = true ->
  ra c (containers t) (read_ty c e t).
Definition ra_fields (fs : fields) : Prop := forall c seen e, wf_fields seen fs = true ->
  rall (fun e => read_error (fst e) /\ In (snd e) (f_ids fs))
       (fun e => fst e = BufferExhaustion /\ In (snd e) (f_ids fs))
       (fun n => 0 <= n) (alloc_ok c (containers_fields fs)) (read_fields c e fs).
Definition ra_alts (al : alts) : Prop := forall c seen e i, wf_alts seen al = true ->
  ra c (containers_alts al) (read_alts c e al i).

Lemma ra_raw c cs esz len : 0 <= esz -> ra c cs (read_raw c esz len).
Proof.
  intros He. unfold read_raw. destruct (c_cx c).
  - apply rall_bind; [|simpl; auto]. apply rall_rrep. simpl. auto.
  - simpl. repeat split; auto. apply to_size_range.
Qed.

Lemma ra_check c cs k v : ra c cs (rcheck k v).
Proof. unfold rcheck, ra, read_error. destruct (check k v); simpl; auto. Qed.

Lemma ra_struct fs : ra_fields fs -> forall c, wf_fields [] fs = true ->
  ra c (containers_fields fs)
     (rbind (rmaperr fst (read_fields c (mk_env fs (default_fields fs)) fs))
            (fun vs => RRet (VRec vs))).
Proof.
  intros Hf c Hwf. apply rall_bind; [|simpl; auto]. apply rall_maperr.
  eapply rall_impl; [| | | |apply (Hf c []); auto]; simpl; tauto.
Qed.

Lemma reader_all : (forall t, ra_ty t) /\ (forall fs, ra_fields fs) /\ (forall al, ra_alts al).
Proof.
  apply schema_mutind; unfold ra_ty, ra_fields, ra_alts, ra.
  - intros t n c seen e Hwf. cbn [read_ty]. unfold read_fixed.
    destruct (csize t <? n)%nat; simpl; auto.
    split; [lia|split; auto]. intros bs. destruct (load _ _ _); simpl; auto.
  - intros elt l b c seen e Hwf. cbn [wf_ty] in Hwf. apply andb_true_iff in Hwf.
    destruct Hwf as [H1 H2]. cbn [read_ty containers].
    destruct (deduce_len c e l) as [len|] eqn:El; simpl; auto.
    apply deduce_len_range in El as Hr. pose proof (csize_pos _ H1).
    unfold read_var. destruct (len_allowed _ _ _) eqn:Ea; [|simpl; unfold read_error; auto].
    split.
    + exists (Z.of_nat (csize elt)), b, len. split; [left; auto|]. split; auto. split; auto.
      apply len_allowed_ceiling; auto; lia.
    + apply rall_bind; [apply ra_raw; lia|]. intros mem.
      destruct (sequence _); simpl; auto.
  - intros fs IH c seen e Hwf. apply ra_struct; auto.
  - intros n fs IH c seen e Hwf. cbn [read_ty]. apply rall_bind; [|simpl; auto].
    apply rall_rrep. apply ra_struct; auto.
  - intros fs IH recsz l b c seen e Hwf. cbn [wf_ty] in Hwf.
    apply andb_true_iff in Hwf. destruct Hwf as [Hwf H2].
    apply andb_true_iff in Hwf. destruct Hwf as [Hwf H3]. apply Z.ltb_lt in H3.
    cbn [read_ty containers].
    destruct (deduce_len c e l) as [len|] eqn:El; simpl; auto.
    apply deduce_len_range in El as Hr.
    destruct (len_allowed _ _ _) eqn:Ea; [|simpl; unfold read_error; auto].
    split.
    + exists recsz, b, len. split; [left; auto|]. split; auto. split; auto.
      apply len_allowed_ceiling; auto; lia.
    + apply rall_bind; [|simpl; auto]. apply rall_rrep.
      eapply ra_weaken; [|apply ra_struct; auto]. apply incl_tl, incl_refl.
  - intros b IH p ids c seen e Hwf. cbn [wf_ty] in Hwf. apply andb_true_iff in Hwf.
    destruct Hwf as [H1 H2]. cbn [read_ty containers].
    destruct (lookups e ids) as [vs|]; simpl; auto. destruct (p vs); simpl; auto.
    apply rall_bind; [|simpl; auto]. eapply IH; eauto.
  - intros g al IH c seen e Hwf. cbn [wf_ty] in Hwf. apply andb_true_iff in Hwf.
    destruct Hwf as [H1 H2]. cbn [read_ty containers].
    destruct (deduce_type e g) as [[i|]|]; simpl; unfold read_error; auto.
    apply rall_bind; [|simpl; auto]. eapply IH; eauto.
  - intros c seen e _. simpl. auto.
  - intros id t IHt k fs IHfs c seen e Hwf. cbn [wf_fields] in Hwf.
    apply andb_true_iff in Hwf. destruct Hwf as [Hwf H3].
    apply andb_true_iff in Hwf. destruct Hwf as [H1 H2].
    cbn [read_fields containers_fields f_ids]. apply rall_bind.
    + apply rall_maperr. apply rall_bind.
      * eapply rall_impl; [| | | |apply (ra_weaken c (containers t)
            (containers t ++ containers_fields fs)); [apply incl_appl, incl_refl|];
          eapply IHt; eauto]; simpl; auto.
      * intros v. eapply rall_impl; [| | | |apply (ra_check c [] k v)]; simpl; auto.
        intros n (? & ? & ? & [] & _).
    + intros v. apply rall_bind; [|simpl; auto].
      eapply rall_impl; [| | | |eapply (IHfs c (id :: seen)); eauto]; simpl; try tauto.
      intros n (esz & b & len & Hin & H'). exists esz, b, len. split; auto.
      apply in_or_app; auto.
  - intros c seen e i _. simpl. auto.
  - intros t IHt k al IHal c seen e i Hwf. cbn [wf_alts] in Hwf.
    apply andb_true_iff in Hwf. destruct Hwf as [H1 H2].
    destruct i; cbn [read_alts containers_alts].
    + apply rall_bind; [|intros; apply ra_check].
      eapply ra_weaken; [|eapply IHt; eauto]. apply incl_appl, incl_refl.
    + eapply ra_weaken; [|eapply IHal; eauto]. apply incl_appr, incl_refl.
Qed.

Lemma struct_cast_all c fs : wf fs = true ->
  rall (fun e => read_error (fst e) /\ In (snd e) (f_ids fs))
       (fun e => fst e = BufferExhaustion /\ In (snd e) (f_ids fs))
       (fun n => 0 <= n) (alloc_ok c (containers_fields fs)) (struct_cast c fs).
Proof. intros H. destruct reader_all as (_ & Hf & _). eapply Hf; eauto. Qed.

(** ** The reader looks only at fields declared earlier *)

Lemma read_ty_agree c seen e e' t : wf_ty seen t = true -> agree seen e e' ->
  read_ty c e t = read_ty c e' t
with read_alts_agree c seen e e' al i : wf_alts seen al = true -> agree seen e e' ->
  read_alts c e al i = read_alts c e' al i.
Proof.
  - intros Hwf Ha. destruct t; cbn [read_ty wf_ty] in *; auto.
    + apply andb_true_iff in Hwf. destruct Hwf as [H1 H2].
      rewrite (deduce_len_agree c _ _ _ _ Ha H2). auto.
    + apply andb_true_iff in Hwf. destruct Hwf as [H1 H2].
      rewrite (deduce_len_agree c _ _ _ _ Ha H2). auto.
    + apply andb_true_iff in Hwf. destruct Hwf as [H1 H2].
      rewrite (agree_lookups _ _ _ _ Ha H1). rewrite (read_ty_agree c seen e e' t); auto.
    + apply andb_true_iff in Hwf. destruct Hwf as [H1 H2].
      rewrite (deduce_type_agree _ _ _ _ Ha H1).
      destruct (deduce_type e' g) as [[i|]|]; auto.
      rewrite (read_alts_agree c seen e e'); auto.
  - intros Hwf Ha. destruct al; cbn [read_alts wf_alts] in *; auto.
    apply andb_true_iff in Hwf. destruct Hwf as [H1 H2]. destruct i.
    + rewrite (read_ty_agree c seen e e'); auto.
    + eapply read_alts_agree; eauto.
Qed.

Lemma agree_update_both seen e e' id v : agree seen e e' ->
  (exists w, lookup e id = Some w) -> (exists w, lookup e' id = Some w) ->
  agree (id :: seen) (update e id v) (update e' id v).
Proof.
  intros Ha H1 H2 id' Hin. destruct (String.eqb_spec id id').
  - subst. rewrite !lookup_update_same; auto.
  - rewrite !lookup_update_other by auto. apply Ha. unfold memb in *. simpl in Hin.
    destruct (String.eqb_spec id' id); auto; congruence.
Qed.

Lemma read_fields_agree c fs : forall seen e e', wf_fields seen fs = true ->
  agree seen e e' -> dom fs e -> dom fs e' ->
  req (read_fields c e fs) (read_fields c e' fs).
Proof.
  induction fs; intros seen e e' Hwf Ha Hd Hd'; cbn [read_fields wf_fields] in *.
  - constructor.
  - apply andb_true_iff in Hwf. destruct Hwf as [Hwf H3].
    apply andb_true_iff in Hwf. destruct Hwf as [H1 H2].
    assert (D1 : exists w, lookup e id = Some w) by (apply Hd; left; auto).
    assert (D2 : exists w, lookup e' id = Some w) by (apply Hd'; left; auto).
    rewrite (read_ty_agree c seen e e' t); auto.
    apply req_bind; [apply req_refl|]. intros v.
    apply req_bind; [|intros; apply req_refl].
    apply IHfs with (seen := id :: seen); auto using agree_update_both.
    + apply dom_update. intros x Hx. apply Hd. right; auto.
    + apply dom_update. intros x Hx. apply Hd'. right; auto.
Qed.

(** ** Prefixes of a field list *)

Lemma f_ids_app fs gs : f_ids (f_app fs gs) = f_ids fs ++ f_ids gs.
Proof. induction fs; simpl; congruence. Qed.

Lemma f_app_assoc a b d : f_app (f_app a b) d = f_app a (f_app b d).
Proof. induction a; simpl; congruence. Qed.

Lemma f_app_nil a : f_app a FNil = a.
Proof. induction a; simpl; congruence. Qed.

Lemma wf_fields_app fs gs : forall seen, wf_fields seen (f_app fs gs) = true ->
  wf_fields seen fs = true /\ wf_fields (rev (f_ids fs) ++ seen) gs = true.
Proof.
  induction fs; intros seen H; cbn [f_app wf_fields f_ids] in *; auto.
  apply andb_true_iff in H. destruct H as [H H3].
  apply IHfs in H3. destruct H3 as [H3 H4]. rewrite H, H3. split; auto.
  simpl. rewrite <- app_assoc. auto.
Qed.

Lemma wf_app_l fs gs : wf (f_app fs gs) = true -> wf fs = true.
Proof. intros H. apply wf_fields_app in H. tauto. Qed.

Lemma dom_app_l fs gs e : dom (f_app fs gs) e -> dom fs e.
Proof. intros H id Hin. apply H. rewrite f_ids_app. apply in_or_app; auto. Qed.

Fixpoint updates (e : env) (fs : fields) (vs : list val) : env :=
  match fs, vs with
  | FCons id _ _ fs', v :: vs' => updates (update e id v) fs' vs'
  | _, _ => e
  end.

Lemma rbind_assoc {E A B C} (p : rprog E A) (f : A -> rprog E B) (g : B -> rprog E C) :
  req (rbind (rbind p f) g) (rbind p (fun a => rbind (f a) g)).
Proof. induction p; simpl; try constructor; auto using req_refl. Qed.

Lemma req_sym {E A} (p q : rprog E A) : req p q -> req q p.
Proof. induction 1; constructor; auto. Qed.

Lemma req_trans {E A} (p q : rprog E A) : req p q -> forall r, req q r -> req p r.
Proof.
  induction 1; intros r Hr; inversion Hr; subst; auto; try constructor; auto.
Qed.

Lemma read_fields_app c fs gs : forall e,
  req (read_fields c e (f_app fs gs))
      (rbind (read_fields c e fs) (fun vs =>
         rbind (read_fields c (updates e fs vs) gs) (fun ws => RRet (vs ++ ws)))).
Proof.
  induction fs; intros e; cbn [f_app read_fields].
  - simpl. induction (read_fields c e gs); simpl; try constructor; auto.
  - eapply req_trans; [|apply req_sym, rbind_assoc].
    apply req_bind; [apply req_refl|]. intros v.
    eapply req_trans; [|apply req_sym, rbind_assoc].
    eapply req_trans; [apply req_bind; [apply IHfs|intros; apply req_refl]|].
    eapply req_trans; [apply rbind_assoc|].
    apply req_bind; [apply req_refl|]. intros vs. simpl.
    eapply req_trans; [apply rbind_assoc|].
    apply req_bind; [apply req_refl|]. intros ws. simpl. constructor.
Qed.

Lemma struct_cast_app c fs gs : wf (f_app fs gs) = true ->
  req (struct_cast c (f_app fs gs))
      (rbind (struct_cast c fs) (fun vs =>
         rbind (read_fields c (updates (mk_env (f_app fs gs) (default_fields (f_app fs gs))) fs vs) gs)
               (fun ws => RRet (vs ++ ws)))).
Proof.
  intros Hwf. unfold struct_cast.
  eapply req_trans; [apply read_fields_app|].
  apply req_bind; [|intros; apply req_refl].
  apply read_fields_agree with (seen := []).
  - apply (wf_app_l _ _ Hwf).
  - intros id; discriminate.
  - eapply dom_app_l. apply dom_mk_env, default_fields_length.
  - apply dom_mk_env, default_fields_length.
Qed.

(** A failing cast: everything before the failing field succeeded, and nothing
    after it matters. *)
Lemma read_fields_fail c S alloc fs : forall e s r id s' ev,
  rrun S alloc (read_fields c e fs) s = (Err (r, id), s', ev) ->
  exists pre t k post vs s1 ev1 ev2,
    fs = f_app pre (FCons id t k post) /\
    rrun S alloc (read_fields c e pre) s = (Ok vs, s1, ev1) /\ ev = ev1 ++ ev2 /\
    rrun S alloc (read_fields c e (f_app pre (FCons id t k FNil))) s = (Err (r, id), s', ev).
Proof.
  induction fs; intros e s r id' s' ev H.
  - simpl in H. discriminate.
  - cbn [read_fields] in H. rewrite rrun_bind in H.
    destruct (rrun S alloc (rmaperr _ _) s) as [[[v|[r0 id0]| | |] s1] ev1] eqn:E1; try discriminate.
    + rewrite rrun_bind in H.
      destruct (rrun S alloc (read_fields c (update e id v) fs) s1)
        as [[[vs|[r0 id0]| | |] s2] ev2] eqn:E2; try discriminate.
      inversion H; subst; clear H.
      destruct (IHfs _ _ _ _ _ _ E2) as (pre & t' & k' & post & vs & s3 & ev3 & ev4 & -> & H1 & -> & H2).
      exists (FCons id t c0 pre), t', k', post, (v :: vs), s3, (ev1 ++ ev3), ev4.
      split; auto. cbn [read_fields f_app]. rewrite !rrun_bind, E1, !rrun_bind, H1, H2.
      simpl. rewrite app_nil_r, app_assoc. auto.
    + inversion H; subst; clear H.
      assert (id' = id); [|subst id'].
      { rewrite rrun_maperr in E1.
        destruct (rrun S alloc (rbind (read_ty c e t) (rcheck c0)) s) as [[[| | | |] ?] ?];
          inversion E1; auto. }
      destruct fs as [|]; exists FNil, t, c0; eexists; exists [], s, []; exists ev.
      all: split; [reflexivity|]; split; [reflexivity|]; split; [reflexivity|].
      all: cbn [read_fields f_app]; rewrite rrun_bind, E1; reflexivity.
Qed.

Lemma struct_cast_fail c S alloc fs s r id s' ev : wf fs = true ->
  rrun S alloc (struct_cast c fs) s = (Err (r, id), s', ev) ->
  exists pre t k post vs s1 ev1 ev2,
    fs = f_app pre (FCons id t k post) /\
    rrun S alloc (struct_cast c pre) s = (Ok vs, s1, ev1) /\ ev = ev1 ++ ev2 /\
    rrun S alloc (struct_cast c (f_app pre (FCons id t k FNil))) s = (Err (r, id), s', ev).
Proof.
  intros Hwf H.
  destruct (read_fields_fail _ _ _ _ _ _ _ _ _ _ H)
    as (pre & t & k & post & vs & s1 & ev1 & ev2 & -> & H1 & H2 & H3).
  exists pre, t, k, post, vs, s1, ev1, ev2. split; auto. split; [|split]; auto.
  - rewrite <- H1. apply req_rrun. unfold struct_cast.
    apply read_fields_agree with (seen := []).
    + apply (wf_app_l _ _ Hwf).
    + intros ?; discriminate.
    + apply dom_mk_env, default_fields_length.
    + eapply dom_app_l. apply dom_mk_env, default_fields_length.
  - rewrite <- H3. apply req_rrun. unfold struct_cast.
    replace (f_app pre (FCons id t k post)) with (f_app (f_app pre (FCons id t k FNil)) post) in *
      by (rewrite f_app_assoc; auto).
    apply read_fields_agree with (seen := []).
    + apply (wf_app_l _ _ Hwf).
    + intros ?; discriminate.
    + apply dom_mk_env, default_fields_length.
    + eapply dom_app_l. apply dom_mk_env, default_fields_length.
Qed.
