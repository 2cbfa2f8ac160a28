(** What a cast asks of the stream and of the allocator. *)
From Coq Require Import ZifyBool ZifyNat.
From Verif Require Import CallSpec Read Write Typing BytesFacts ProgFacts ReadFacts ReadMore Safety.
From Verif Require Import WriteFacts WriteMain.

(** ** Writing *)

(** The calls the program makes are the first of [l], all of them if it gets to the
    end. *)
Fixpoint follows {E A} (p : wprog E A) (l : list (list Z)) : Prop :=
  match p with
  | WRet _ => l = []
  | WErr _ | WUB | WStuck => True
  | WWrite bs _ k => match l with b :: l' => b = bs /\ follows k l' | [] => False end
  end.

Lemma follows_bind {E A B} (p : wprog E A) (f : A -> wprog E B) l2 : (forall a, follows (f a) l2) ->
  forall l1, follows p l1 -> follows (wbind p f) (l1 ++ l2).
Proof.
  intros H. induction p as [a| | | |bs e k IH]; simpl; auto.
  - intros l1 ->. apply H.
  - intros [|b l1]; [tauto|]. intros [-> F]. simpl. auto.
Qed.

Lemma follows_check {E B} (p : wprog E unit) (f : unit -> wprog E B) l :
  follows p [] -> follows (f tt) l -> follows (wbind p f) l.
Proof. intros H1 H2. apply (follows_bind p f l) with (l1 := []); auto. intros []; auto. Qed.

Lemma follows_maperr {E E' A} (g : E -> E') (p : wprog E A) : forall l,
  follows p l -> follows (wmaperr g p) l.
Proof. induction p; simpl; auto. intros [|b l]; [tauto|]. intros [-> F]. auto. Qed.

Lemma follows_wfor {E A} (l : list A) (f : A -> wprog E unit) (g : A -> list (list Z)) :
  Forall (fun x => follows (f x) (g x)) l -> follows (wfor l f) (flat_map g l).
Proof. induction 1; simpl; auto. apply follows_bind; auto. Qed.

Lemma follows_puts l : follows (wfor l put) l.
Proof. induction l; simpl; auto. Qed.

Lemma follows_prefix bs n : (n <= length bs)%nat -> follows (put_prefix bs n) [firstn n bs].
Proof. intros H. unfold put_prefix. destruct (Nat.ltb_spec (length bs) n); simpl; auto; lia. Qed.

Lemma follows_wcheck k v : follows (wcheck k v) [].
Proof. unfold wcheck. destruct (check k v); simpl; auto. Qed.

Lemma follows_verify_len c e l n : follows (verify_len c e l n) [].
Proof.
  unfold verify_len. destruct l; simpl; auto. destruct (lookups e ids); simpl; auto.
  destruct (_ =? n); simpl; auto.
Qed.

Lemma foreign_leaves c t : is_host_order c = false -> ct_wf t = true -> forall v, ct_ok t v ->
  foreign_chunks (c_host c) t v = Some (leaves (c_wire c) t v).
Proof.
  intros Hh. induction t as [s|n t IH|n|w]; intros Hw v Hv.
  - destruct v; simpl in *; try tauto. do 2 f_equal.
    destruct (Nat.ltb_spec 1 (ssize s)); [apply store_swapped_wire|apply store_scalar_one]; auto; lia.
  - destruct v as [|l| | | | |]; simpl in *; try tauto. destruct Hv as [<- Hv].
    apply andb_true_iff in Hw. destruct Hw as [_ Hw]. rewrite Nat.eqb_refl.
    rewrite (sequence_all _ (leaves (c_wire c) t)); [rewrite flat_map_concat_map; reflexivity|].
    eapply Forall_impl; [|exact Hv]. auto.
  - destruct (store_str (c_host c) n v Hv) as [H1 H2]. cbn [foreign_chunks]. rewrite H1.
    cbn [leaves]. rewrite (H2 (c_wire c)). reflexivity.
  - apply ffmt_pos in Hw. destruct v; simpl in *; try tauto. destruct Hv as [-> _].
    rewrite Nat.eqb_refl. do 2 f_equal.
    destruct (Nat.ltb_spec 1 w); [apply store_swapped_wire|apply store_scalar_one; simpl]; auto; lia.
Qed.

Lemma follows_const c t n v : ct_wf t = true ->
  match t with TScalar _ | TFloat _ => (n <= csize t)%nat | _ => n = csize t end -> ct_ok t v ->
  follows (write_const c t n v) (fixed_calls c t n v).
Proof.
  intros Hw Hn Hv. pose proof (enc_ct_length (c_wire c) t v Hv) as Hl.
  assert (Hn' : (n <= csize t)%nat) by (destruct t; simpl in *; lia).
  unfold write_const, fixed_calls. change (same_order c) with (is_host_order c).
  destruct (is_host_order c) eqn:Hh.
  - rewrite store_enc by auto.
    pose proof (follows_prefix (enc_ct (c_wire c) t v) n ltac:(lia)) as F.
    destruct t; auto. rewrite firstn_all2 in F by (rewrite Hl; lia). auto.
  - destruct t as [s|m t|m|w].
    + destruct v; simpl in Hv; try tauto. rewrite store_swapped_wire by auto.
      apply follows_prefix. rewrite <- Hl in Hn'. exact Hn'.
    + rewrite foreign_leaves by auto. apply follows_puts.
    + destruct (store_str (c_host c) m v Hv) as [-> He]. rewrite (He (c_wire c)).
      apply follows_prefix. rewrite <- (He (c_wire c)). lia.
    + destruct v; simpl in Hv; try tauto. destruct Hv as [-> _].
      rewrite Nat.eqb_refl, store_swapped_wire by auto.
      apply follows_prefix. rewrite <- Hl in Hn'. exact Hn'.
Qed.

Lemma follows_var c elt l : ct_wf elt = true -> Forall (ct_ok elt) l ->
  follows (write_var c elt l) (var_calls c elt l).
Proof.
  intros Hw Hv. unfold write_var, var_calls. change (same_order c) with (is_host_order c).
  destruct (is_host_order c) eqn:Hh.
  - rewrite (sequence_all _ (enc_ct (c_wire c) elt)).
    + destruct (c_cx c); [apply follows_puts|]. rewrite flat_map_concat_map. simpl. auto.
    + eapply Forall_impl; [|exact Hv]. intros a. apply store_enc; auto.
  - rewrite (sequence_all _ (leaves (c_wire c) elt)).
    + rewrite <- flat_map_concat_map. apply follows_puts.
    + eapply Forall_impl; [|exact Hv]. intros a. apply foreign_leaves; auto.
Qed.

Lemma follows_verify c fs vs id t n v l : follows (write_const c t n v) l ->
  follows (verify_then_write c fs vs id t n v) l.
Proof.
  intros H. unfold verify_then_write. destruct (has_cond_obligation fs id); auto.
  destruct v; simpl; auto. destruct (verify_cond _ _ _ _ _) as [[|]|]; simpl; auto.
Qed.

Lemma follows_fixed c fs vs id mem k t n v : wctx fs vs -> ct_wf t = true ->
  match t with TScalar _ | TFloat _ => (n <= csize t)%nat | _ => n = csize t end -> ct_ok t v ->
  constr_ok (FFixed t n) k = true ->
  (is_derived fs id || has_cond_obligation fs id = true -> exists s, t = TScalar s) ->
  (mem = false -> is_derived fs id || has_cond_obligation fs id = false) ->
  follows (write_fixed c fs vs id mem k t n v)
    (fixed_calls c t n (if mem then slot (hd_error (claims c id fs vs)) k (FFixed t n) v else v)).
Proof.
  intros Hx Hw Hn Hv Hk Hs Hm. unfold write_fixed.
  pose proof (x_derived _ _ Hx c id) as Hd.
  destruct (is_derived fs id) eqn:Ed.
  - destruct mem; [|specialize (Hm eq_refl); discriminate].
    destruct (Hs eq_refl) as [s ->]. unfold derive_value. rewrite (x_fold _ _ Hx).
    destruct (claims c id fs vs) as [|z l]; [exfalso; apply Hd; auto|]. simpl hd_error.
    cbn [fold_left slot]. change (record (mkD 0 false true) z) with (mkD z true true).
    destruct (record_agreed l z) as [R1 R2].
    destruct (d_agreed _) eqn:Ea; cbn [negb]; [|exact I].
    rewrite R2 by (apply R1; auto). destruct (fits_declared_width c s n z); cbn [negb]; [|exact I].
    apply follows_check; [apply follows_wcheck|].
    apply follows_verify, follows_const; auto. simpl. apply conv_in.
  - assert (claims c id fs vs = []) as ->.
    { destruct (claims c id fs vs); auto. exfalso. assert (false = true) by (apply Hd; discriminate).
      discriminate. }
    unfold is_frozen. rewrite frozen_pinned. destruct mem; simpl andb.
    + cbn [hd_error]. assert (slot None k (FFixed t n) v = match pinned t k with Some w => w | None => v end)
        as -> by (destruct t; auto).
      destruct (pinned t k) as [w|] eqn:Ep; apply follows_verify, follows_const; auto.
      eapply pinned_ok; eauto.
    + apply follows_verify, follows_const; auto.
Qed.

Definition fo_ty (t : fty) : Prop := forall c fs vs id mem k v G seen,
  wctx fs vs -> wf_ty seen t = true -> incl seen (f_ids fs) -> typed_ty G t = true ->
  sub G (tafter [] fs) -> constr_ok t k = true -> has_ty t v ->
  (is_derived fs id || has_cond_obligation fs id = true -> exists s n, t = FFixed (TScalar s) n) ->
  (mem = false -> is_derived fs id || has_cond_obligation fs id = false) ->
  follows (write_ty c fs vs id mem k t v)
    (calls_ty c t
      (if mem then slot (hd_error (claims c id fs vs)) k t (emit_ty c t v) else emit_ty c t v)).

Definition fo_fields (gs : fields) : Prop := forall c fs vs ws G seen,
  wctx fs vs -> wf_fields seen gs = true -> incl seen (f_ids fs) -> incl (f_ids gs) (f_ids fs) ->
  typed_fields G gs = true -> sub G (tafter [] fs) -> members (tafter [] fs) gs ->
  has_fields gs ws ->
  follows (write_fields c fs vs gs ws)
    (calls_fields c gs (emit_fields c (fun id => hd_error (claims c id fs vs)) gs ws)).

Definition fo_alts (al : alts) : Prop := forall c fs vs id i v G seen,
  wctx fs vs -> wf_alts seen al = true -> incl seen (f_ids fs) -> typed_alts G al = true ->
  sub G (tafter [] fs) -> has_alt al i v ->
  is_derived fs id || has_cond_obligation fs id = false ->
  follows (write_alts c fs vs id al i v) (calls_alts c al i (emit_alts c al i v)).

Lemma fo_cast gs : fo_fields gs -> forall c ws, wf_fields [] gs = true ->
  typed_fields [] gs = true -> has_fields gs ws ->
  follows (write_fields c gs ws gs ws) (calls_fields c gs (emitted c gs ws)).
Proof.
  intros IH c ws Hw Ht Hv. destruct (wctx_intro gs ws Hw Ht Hv) as [Hx Hm].
  eapply IH; eauto.
  - intros x [].
  - apply incl_refl.
  - intros i t Hl. discriminate.
Qed.

Lemma fo_records gs : fo_fields gs -> forall c xs, wf_fields [] gs = true ->
  typed_fields [] gs = true ->
  Forall (fun x => match x with VRec vs => has_fields gs vs | _ => False end) xs ->
  follows (wfor xs (fun x => match x with
                             | VRec ws => wmaperr fst (write_fields c gs ws gs ws)
                             | _ => WStuck
                             end))
    (flat_map (fun x => match x with VRec ws => calls_fields c gs ws | _ => [] end)
       (map (fun x => match x with VRec ws => VRec (emitted c gs ws) | _ => x end) xs)).
Proof.
  intros IH c xs Hw Ht Hv. rewrite flat_map_concat_map, map_map, <- flat_map_concat_map.
  apply follows_wfor. eapply Forall_impl; [|exact Hv]. intros x Hx. destruct x; try tauto.
  apply follows_maperr. apply fo_cast; auto.
Qed.

Lemma writer_calls : (forall t, fo_ty t) /\ (forall gs, fo_fields gs) /\ (forall al, fo_alts al).
Proof.
  apply schema_mutind; unfold fo_ty, fo_alts.
  - intros t n c fs vs id mem k v G seen Hx Hw Hi Ht Hs Ho Hv Hd Hm.
    cbn [write_ty wf_ty has_ty emit_ty] in *. apply andb_true_iff in Hw. destruct Hw as [W1 W2].
    apply follows_fixed; auto.
    + destruct t; lia.
    + intros H. destruct (Hd H) as (s & m & E). inversion E; subst. eauto.
  - intros elt l b c fs vs id mem k v G seen Hx Hw Hi Ht Hs Ho Hv Hd Hm.
    rewrite slot_if by discriminate. cbn [write_ty wf_ty typed_ty has_ty emit_ty] in *.
    apply andb_true_iff in Hw. destruct Hw as [W1 W2].
    destruct v; try tauto. apply follows_check; [apply follows_verify_len|].
    apply follows_var; auto.
  - intros gs IH c fs vs id mem k v G seen Hx Hw Hi Ht Hs Ho Hv Hd Hm.
    rewrite slot_if by discriminate. cbn [write_ty wf_ty typed_ty has_ty emit_ty] in *.
    destruct v; try tauto. apply follows_maperr. apply (fo_cast gs IH); auto.
  - intros n gs IH c fs vs id mem k v G seen Hx Hw Hi Ht Hs Ho Hv Hd Hm.
    rewrite slot_if by discriminate. cbn [write_ty wf_ty typed_ty has_ty emit_ty] in *.
    destruct v; try tauto. destruct Hv as [<- Hv]. rewrite Nat.eqb_refl.
    apply (fo_records gs IH); auto.
  - intros gs IH recsz l b c fs vs id mem k v G seen Hx Hw Hi Ht Hs Ho Hv Hd Hm.
    rewrite slot_if by discriminate. cbn [write_ty wf_ty typed_ty has_ty emit_ty] in *.
    apply andb_true_iff in Hw. destruct Hw as [Hw W2].
    apply andb_true_iff in Hw. destruct Hw as [W1 W3].
    apply andb_true_iff in Ht. destruct Ht as [T1 T2].
    destruct v; try tauto. apply follows_check; [apply follows_verify_len|].
    apply (fo_records gs IH); auto.
  - intros b IH p ids c fs vs id mem k v G seen Hx Hw Hi Ht Hs Ho Hv Hd Hm.
    rewrite slot_if by discriminate. cbn [write_ty wf_ty typed_ty has_ty emit_ty] in *.
    apply andb_true_iff in Hw. destruct Hw as [W1 W2].
    apply andb_true_iff in Ht. destruct Ht as [_ T2].
    destruct (covers_lookups _ _ ids (covers_incl _ _ _ (x_cov _ _ Hx) Hi) W1) as [args ->].
    assert (Hnd : is_derived fs id || has_cond_obligation fs id = false).
    { destruct (is_derived fs id || has_cond_obligation fs id); auto.
      destruct (Hd eq_refl) as (s & n & E). discriminate. }
    destruct (p args), v; try tauto; try exact I; try reflexivity.
    cbn [calls_ty]. apply (IH c fs vs id false CNone v G seen); auto. intros H. congruence.
  - intros g al IH c fs vs id mem k v G seen Hx Hw Hi Ht Hs Ho Hv Hd Hm.
    rewrite slot_if by discriminate. cbn [write_ty wf_ty typed_ty has_ty emit_ty] in *.
    apply andb_true_iff in Hw. destruct Hw as [W1 W2].
    apply andb_true_iff in Ht. destruct Ht as [T1 T2].
    assert (Hnd : is_derived fs id || has_cond_obligation fs id = false).
    { destruct (is_derived fs id || has_cond_obligation fs id); auto.
      destruct (Hd eq_refl) as (s & n & E). discriminate. }
    destruct v; try tauto. cbn [calls_ty].
    assert (Hal : follows (write_alts c fs vs id al i v) (calls_alts c al i (emit_alts c al i v))) by eauto.
    destruct g; auto; (destruct (deduce_type _ _) as [[j|]|]; [|exact I|exact I]);
      destruct (Nat.eqb j i); auto; exact I.
  - intros c fs vs ws G seen Hx Hw Hi Hi' Ht Hs Hm Hv. destruct ws; [|simpl in Hv; tauto].
    reflexivity.
  - intros id t IHt k gs IHgs c fs vs ws G seen Hx Hw Hi Hi' Ht Hs Hm Hv.
    destruct ws as [|w ws]; [simpl in Hv; tauto|].
    cbn [write_fields wf_fields typed_fields has_fields members f_ids emit_fields calls_fields] in *.
    apply andb_true_iff in Hw. destruct Hw as [Hw W3]. apply andb_true_iff in Hw. destruct Hw as [W1 W2].
    apply andb_true_iff in Ht. destruct Ht as [Ht T3]. apply andb_true_iff in Ht. destruct Ht as [T1 T2].
    destruct Hv as [V1 V2]. destruct Hm as [M1 M2].
    apply follows_bind.
    + intros []. apply (IHgs c fs vs ws ((id, t) :: G) (id :: seen)); auto.
      * intros x [->|Hin]; auto. apply Hi'. left; auto.
      * intros x Hin. apply Hi'. right; auto.
      * intros i u. simpl. destruct (String.eqb_spec id i); auto. intros E; inversion E; subst; auto.
    + apply follows_maperr. apply follows_check.
      * destruct (is_derived fs id || is_frozen t k); [reflexivity|]. apply follows_wcheck.
      * apply (IHt c fs vs id true k w G seen); auto; try discriminate.
        intros H. destruct (x_scalar _ _ Hx _ H) as (s & n & E). rewrite M1 in E. inversion E; eauto.
  - intros c fs vs id i v G seen _ _ _ _ _ Hv. simpl in Hv. tauto.
  - intros t IHt k al IHal c fs vs id i v G seen Hx Hw Hi Ht Hs Hv Hd.
    cbn [write_alts wf_alts typed_alts has_alt emit_alts calls_alts] in *.
    apply andb_true_iff in Hw. destruct Hw as [W1 W2].
    apply andb_true_iff in Ht. destruct Ht as [Ht T3].
    apply andb_true_iff in Ht. destruct Ht as [Ht T2].
    apply andb_true_iff in Ht. destruct Ht as [_ T1].
    destruct i.
    + apply follows_check; [apply follows_wcheck|].
      apply (IHt c fs vs id false k v G seen); auto. intros H. congruence.
    + eapply IHal; eauto.
Qed.

Lemma follows_run {E A} (S : ostream) (p : wprog E A) : forall l s o s' ch,
  follows p l -> wrun S p s = (o, s', ch) ->
  (exists rest, l = map fst ch ++ rest) /\
  (forall a, o = Ok a -> ch = map (fun bs => (bs, true)) l).
Proof.
  induction p as [a|e| | |bs e k IH]; simpl; intros l s o s' ch F R.
  - injection R as <- <- <-. subst l. split; [exists []|]; auto.
  - injection R as <- <- <-. split; [exists l; auto|discriminate].
  - injection R as <- <- <-. split; [exists l; auto|discriminate].
  - injection R as <- <- <-. split; [exists l; auto|discriminate].
  - destruct l as [|b l]; [tauto|]. destruct F as [-> F].
    destruct (o_write S s bs) as [[|] s1].
    + destruct (wrun S k s1) as [[o1 s2] ch1] eqn:Q. injection R as <- <- <-.
      destruct (IH _ _ _ _ _ F Q) as [[rest ->] H]. split.
      * exists rest. reflexivity.
      * intros a Ha. simpl. rewrite <- (H a Ha). reflexivity.
    + injection R as <- <- <-. split; [exists l; auto|discriminate].
Qed.

Lemma stream_follows c fs vs : wf fs = true -> typed fs = true -> has_fields fs vs ->
  follows (stream_cast c fs vs) (calls_fields c fs (emitted c fs vs)).
Proof. intros. apply fo_cast; auto. apply writer_calls. Qed.

Lemma write_calls c fs vs S s s' ch : wf fs = true -> typed fs = true -> has_fields fs vs ->
  wrun S (stream_cast c fs vs) s = (Ok tt, s', ch) ->
  ch = map (fun bs => (bs, true)) (calls_fields c fs (emitted c fs vs)).
Proof.
  intros Hw Ht Hv R.
  eapply (follows_run S); [apply stream_follows; eauto|exact R|reflexivity].
Qed.

Lemma write_calls_prefix c fs vs S s o s' ch : wf fs = true -> typed fs = true -> has_fields fs vs ->
  wrun S (stream_cast c fs vs) s = (o, s', ch) ->
  exists rest, calls_fields c fs (emitted c fs vs) = map fst ch ++ rest.
Proof. intros Hw Ht Hv R. eapply (follows_run S); [apply stream_follows; eauto|exact R]. Qed.

(** The calls carry the encoding. *)
Lemma leaves_enc o t : forall v, concat (leaves o t v) = enc_ct o t v.
Proof.
  induction t as [s|n t IH|n|w]; intros v; try (destruct v; cbn; rewrite ?app_nil_r; reflexivity).
  destruct v as [|l| | | | |]; try reflexivity. cbn [leaves enc_ct].
  induction l; simpl; auto. rewrite concat_app, IH, IHl. reflexivity.
Qed.

Lemma fixed_calls_enc c t n v : ct_ok t v ->
  match t with TScalar _ | TFloat _ => (n <= csize t)%nat | _ => n = csize t end ->
  concat (fixed_calls c t n v) = firstn n (enc_ct (c_wire c) t v).
Proof.
  intros Hv Hn. pose proof (enc_ct_length (c_wire c) t v Hv) as Hl. unfold fixed_calls.
  destruct t; try (cbn [concat]; rewrite app_nil_r; reflexivity).
  rewrite firstn_all2 by lia. destruct (same_order c); [cbn [concat]; apply app_nil_r|apply leaves_enc].
Qed.

Lemma var_calls_enc c elt l : concat (var_calls c elt l) = flat_map (enc_ct (c_wire c) elt) l.
Proof.
  unfold var_calls. destruct (same_order c); [destruct (c_cx c)|].
  - symmetry. apply flat_map_concat_map.
  - apply app_nil_r.
  - induction l; simpl; auto. rewrite concat_app, leaves_enc, IHl. reflexivity.
Qed.

(** ** Reading *)

(** Whenever the program ends in [a] having made the requests [l], [P a l]. *)
Fixpoint tracks {E A} (p : rprog E A) (P : A -> list ask -> Prop) : Prop :=
  match p with
  | RRet a => P a []
  | RErr _ | RUB | RStuck => True
  | RRead n _ k => forall bs, tracks (k bs) (fun a l => P a (AskRead n :: l))
  | RAlloc n k => tracks k (fun a l => P a (AskMem n :: l))
  end.

Lemma tracks_imp {E A} (p : rprog E A) : forall P Q : A -> list ask -> Prop,
  (forall a l, P a l -> Q a l) -> tracks p P -> tracks p Q.
Proof.
  induction p as [a| | | |n e k IH|n k IH]; simpl; intros P Q H; auto.
  - intros T bs. eapply IH; [|apply T]. intros a l. apply H.
  - apply IH. intros a l. apply H.
Qed.

Lemma tracks_bind {E A B} (p : rprog E A) (f : A -> rprog E B) :
  forall (P : A -> list ask -> Prop) (Q : B -> list ask -> Prop),
  (forall a l, P a l -> tracks (f a) (fun b l' => Q b (l ++ l'))) ->
  tracks p P -> tracks (rbind p f) Q.
Proof.
  induction p as [a| | | |n e k IH|n k IH]; simpl; intros P Q H; auto.
  - intros T. apply (tracks_imp _ _ _ (fun b l X => X) (H a [] T)).
  - intros T bs. eapply IH; [|apply T]. intros a l X. apply (H a (AskRead n :: l) X).
  - apply IH. intros a l X. apply (H a (AskMem n :: l) X).
Qed.

Lemma tracks_maperr {E E' A} (g : E -> E') (p : rprog E A) : forall P,
  tracks p P -> tracks (rmaperr g p) P.
Proof. induction p as [a| | | |n e k IH|n k IH]; simpl; intros P T; auto. Qed.

Lemma tracks_map {E A B} (p : rprog E A) (f : A -> B) (P : A -> list ask -> Prop)
  (Q : B -> list ask -> Prop) :
  (forall a l, P a l -> Q (f a) l) -> tracks p P -> tracks (rbind p (fun a => RRet (f a))) Q.
Proof. intros H. apply tracks_bind. intros a l X. simpl. rewrite app_nil_r. auto. Qed.

Lemma tracks_rrep {E A} (p : rprog E A) (g : A -> list ask) n :
  tracks p (fun a l => l = g a) ->
  tracks (rrep n p) (fun xs l => length xs = n /\ l = flat_map g xs).
Proof.
  intros H. induction n; simpl; auto. eapply tracks_bind; [|exact H].
  intros a l ->. eapply tracks_bind; [|exact IHn].
  intros xs l [<- ->]. simpl. rewrite app_nil_r. auto.
Qed.

Lemma tracks_rcheck k v (P : val -> list ask -> Prop) : P v [] -> tracks (rcheck k v) P.
Proof. intros H. unfold rcheck. destruct (check k v); simpl; auto. Qed.

Lemma tracks_checked p k P : tracks p P -> tracks (rbind p (rcheck k)) P.
Proof. apply tracks_bind. intros a l X. apply tracks_rcheck. rewrite app_nil_r. auto. Qed.

Lemma sequence_length {A} (l : list (option A)) r : sequence l = Some r -> length r = length l.
Proof.
  revert r. induction l as [|[a|] l IH]; simpl; intros r H; try discriminate.
  - injection H as <-. reflexivity.
  - destruct (sequence l); [|discriminate]. injection H as <-. simpl. auto.
Qed.

Lemma chunks_len w n : forall l, length (chunks w n l) = n.
Proof. induction n; simpl; auto. Qed.

Lemma deduce_len_range c e l n : deduce_len c e l = Some n -> 0 <= n < pow256 (c_szw c).
Proof.
  assert (R : forall z, 0 <= to_size c z < pow256 (c_szw c)).
  { intros z. apply Z.mod_pos_bound, pow256_pos. }
  destruct l as [i|f ids]; simpl.
  - destruct (lookup e i) as [[]|]; try discriminate. intros E. injection E as <-. auto.
  - destruct (lookups e ids); try discriminate. intros E. injection E as <-. auto.
Qed.

Lemma allowed_product c b w n : 0 <= n -> 0 <= w -> len_allowed (ceiling c b) w n = true ->
  to_size c (n * w) = n * w.
Proof.
  intros Hn Hw. unfold len_allowed. intros H. apply negb_true_iff, Z.ltb_ge in H.
  assert (R : 0 <= ceiling c b < pow256 (c_szw c)) by apply Z.mod_pos_bound, pow256_pos.
  apply Z.mod_small. split; [nia|]. destruct (Z.eq_dec w 0) as [->|]; [rewrite Z.mul_0_r; lia|].
  pose proof (Z.mul_div_le (ceiling c b) w ltac:(lia)). change (256 ^ Z.of_nat (c_szw c)) with (pow256 (c_szw c)). nia.
Qed.

Lemma tracks_raw c esz len (P : list Z -> list ask -> Prop) :
  (forall bs, P bs (if c_cx c then repeat (AskRead esz) (Z.to_nat len)
                    else [AskRead (to_size c (len * esz))])) ->
  tracks (read_raw c esz len) P.
Proof.
  intros H. unfold read_raw. destruct (c_cx c); [|simpl; auto].
  eapply tracks_bind; [|apply (tracks_rrep _ (fun _ => [AskRead esz])); simpl; auto].
  intros xs l [L ->]. simpl. rewrite app_nil_r.
  assert (flat_map (fun _ : list Z => [AskRead esz]) xs = repeat (AskRead esz) (Z.to_nat len)) as ->.
  { rewrite <- L. clear. induction xs; simpl; congruence. }
  apply H.
Qed.

Lemma tracks_var c elt len b : 0 <= len ->
  tracks (read_var c elt len b) (fun v l => exists xs, v = VSeq xs /\ l = var_asks c elt xs).
Proof.
  intros Hl. unfold read_var.
  destruct (len_allowed (ceiling c b) (Z.of_nat (csize elt)) len) eqn:A; simpl; auto.
  eapply tracks_bind with (P := fun _ l => l = if c_cx c then _ else _); [|apply tracks_raw; reflexivity].
  intros mem l ->. destruct (sequence _) as [vs|] eqn:E; simpl; auto.
  exists vs. split; auto. rewrite app_nil_r.
  apply sequence_length in E. rewrite map_length, chunks_len in E.
  unfold var_asks. rewrite E, Z2Nat.id by auto.
  rewrite (allowed_product _ _ _ _ Hl (Nat2Z.is_nonneg _) A). f_equal.
  destruct (c_cx c); auto. rewrite <- E. clear. induction vs; simpl; congruence.
Qed.

Definition tr_ty (t : fty) : Prop := forall c e, tracks (read_ty c e t) (fun v l => l = asks_ty c t v).
Definition tr_fields (fs : fields) : Prop := forall c e,
  tracks (read_fields c e fs) (fun vs l => l = asks_fields c fs vs).
Definition tr_alts (al : alts) : Prop := forall c e i,
  tracks (read_alts c e al i) (fun v l => l = asks_alts c al i v).

Lemma tr_rec fs : tr_fields fs -> forall c e,
  tracks (rbind (rmaperr fst (read_fields c e fs)) (fun vs => RRet (VRec vs)))
    (fun v l => l = match v with VRec vs => asks_fields c fs vs | _ => [] end).
Proof. intros H c e. eapply tracks_map; [|apply tracks_maperr, H]. auto. Qed.

Lemma reader_asks : (forall t, tr_ty t) /\ (forall fs, tr_fields fs) /\ (forall al, tr_alts al).
Proof.
  apply schema_mutind; unfold tr_ty, tr_fields, tr_alts.
  - intros t n c e. cbn [read_ty]. unfold read_fixed. destruct (Nat.ltb _ _); simpl; auto.
    intros bs. destruct (load _ _ _); simpl; auto.
  - intros elt l b c e. cbn [read_ty]. destruct (deduce_len c e l) as [n|] eqn:E; [|exact I].
    eapply tracks_imp; [|apply tracks_var; apply deduce_len_range in E; lia].
    intros v l' (xs & -> & ->). reflexivity.
  - intros fs IH c e. cbn [read_ty]. apply (tr_rec fs IH).
  - intros n fs IH c e. cbn [read_ty]. eapply tracks_map; [|apply tracks_rrep, (tr_rec fs IH)].
    intros xs l [_ ->]. reflexivity.
  - intros fs IH recsz l b c e. cbn [read_ty]. destruct (deduce_len c e l) as [n|] eqn:E; [|exact I].
    apply deduce_len_range in E. destruct (len_allowed _ _ _); [|exact I]. cbn [tracks].
    eapply tracks_map; [|apply tracks_rrep, (tr_rec fs IH)].
    intros xs l' [L ->]. cbn [asks_ty]. rewrite L, Z2Nat.id by lia. reflexivity.
  - intros b IH p ids c e. cbn [read_ty]. destruct (lookups e ids) as [vs|]; [|exact I].
    destruct (p vs); [|reflexivity]. eapply tracks_map; [|apply IH]. auto.
  - intros g al IH c e. cbn [read_ty]. destruct (deduce_type e g) as [[i|]|]; try exact I.
    eapply tracks_map; [|apply IH]. auto.
  - intros c e. reflexivity.
  - intros id t IHt k fs IHfs c e. cbn [read_fields].
    eapply tracks_bind; [|apply tracks_maperr, tracks_checked, IHt].
    intros v l ->. eapply tracks_map; [|apply IHfs]. intros vs l ->. reflexivity.
  - intros c e i. exact I.
  - intros t IHt k al IHal c e [|i]; cbn [read_alts].
    + apply tracks_checked, IHt.
    + apply IHal.
Qed.

Lemma tracks_run {E A} (S : istream) alloc (p : rprog E A) : forall P s a s' ev,
  tracks p P -> rrun S alloc p s = (Ok a, s', ev) -> P a (map asked ev).
Proof.
  induction p as [x| | | |n e k IH|n k IH]; simpl; intros P s a s' ev T R; try discriminate.
  - injection R as <- <- <-. exact T.
  - destruct (i_read S s n) as [[bs|] s1]; [|discriminate].
    destruct (rrun S alloc (k bs) s1) as [[o s2] ev1] eqn:Q. injection R as -> <- <-.
    apply (IH _ _ _ _ _ _ (T bs) Q).
  - destruct (alloc n); [|discriminate].
    destruct (rrun S alloc k s) as [[o s2] ev1] eqn:Q. injection R as -> <- <-.
    apply (IH _ _ _ _ _ T Q).
Qed.

Lemma read_asks c fs S alloc s vs s' ev :
  rrun S alloc (struct_cast c fs) s = (Ok vs, s', ev) -> map asked ev = asks_fields c fs vs.
Proof. intros R. apply (tracks_run S alloc _ _ _ _ _ _ (proj1 (proj2 reader_asks) fs c _) R). Qed.

Lemma calls_enc :
  (forall t, forall c seen v, wf_ty seen t = true -> has_ty t v ->
     concat (calls_ty c t v) = enc_ty (c_wire c) t v) /\
  (forall fs, forall c seen vs, wf_fields seen fs = true -> has_fields fs vs ->
     concat (calls_fields c fs vs) = enc_fields (c_wire c) fs vs) /\
  (forall al, forall c seen i v, wf_alts seen al = true -> has_alt al i v ->
     concat (calls_alts c al i v) = enc_alts (c_wire c) al i v).
Proof.
  assert (R : forall fs c l, (forall vs, has_fields fs vs ->
      concat (calls_fields c fs vs) = enc_fields (c_wire c) fs vs) ->
      Forall (fun x => match x with VRec vs => has_fields fs vs | _ => False end) l ->
      concat (flat_map (fun x => match x with VRec vs => calls_fields c fs vs | _ => [] end) l) =
      flat_map (fun x => match x with VRec vs => enc_fields (c_wire c) fs vs | _ => [] end) l).
  { intros fs c l H F. induction F as [|x l Hx F IH]; simpl; auto.
    rewrite concat_app, IH. f_equal. destruct x; try tauto. auto. }
  apply schema_mutind.
  - intros t n c seen v Hw Hv. cbn in *. apply andb_true_iff in Hw. destruct Hw as [W1 W2].
    apply fixed_calls_enc; auto. destruct t; lia.
  - intros elt l b c seen v Hw Hv. destruct v; try (simpl in Hv; tauto). apply var_calls_enc.
  - intros fs IH c seen v Hw Hv. cbn [wf_ty has_ty] in *. destruct v; try tauto.
    cbn [calls_ty enc_ty]. eauto.
  - intros n fs IH c seen v Hw Hv. cbn [wf_ty has_ty] in *. destruct v; try tauto.
    destruct Hv as [_ Hv]. cbn [calls_ty enc_ty]. apply R; eauto.
  - intros fs IH recsz l b c seen v Hw Hv. cbn [wf_ty has_ty] in *.
    apply andb_true_iff in Hw. destruct Hw as [Hw W2].
    apply andb_true_iff in Hw. destruct Hw as [W1 W3]. destruct v; try tauto.
    cbn [calls_ty enc_ty]. apply R; eauto.
  - intros b IH p ids c seen v Hw Hv. cbn [wf_ty has_ty] in *.
    apply andb_true_iff in Hw. destruct Hw as [W1 W2]. destruct v; try tauto; auto.
    cbn [calls_ty enc_ty]. eauto.
  - intros g al IH c seen v Hw Hv. cbn [wf_ty has_ty] in *.
    apply andb_true_iff in Hw. destruct Hw as [W1 W2]. destruct v; try tauto.
    cbn [calls_ty enc_ty]. eauto.
  - intros c seen [|v vs] Hw Hv; [reflexivity|simpl in Hv; tauto].
  - intros id t IHt k fs IHfs c seen [|v vs] Hw Hv; [simpl in Hv; tauto|].
    cbn [wf_fields has_fields] in *. apply andb_true_iff in Hw. destruct Hw as [Hw W3].
    apply andb_true_iff in Hw. destruct Hw as [W1 W2]. destruct Hv as [V1 V2].
    cbn [calls_fields enc_fields]. rewrite concat_app. f_equal; eauto.
  - intros c seen i v Hw Hv. simpl in Hv. tauto.
  - intros t IHt k al IHal c seen [|i] v Hw Hv; cbn [wf_alts has_alt calls_alts enc_alts] in *;
      apply andb_true_iff in Hw; destruct Hw as [W1 W2]; eauto.
Qed.

Lemma calls_carry c fs vs : wf fs = true -> has_fields fs vs ->
  concat (calls_fields c fs vs) = enc_fields (c_wire c) fs vs.
Proof. intros Hw Hv. eapply calls_enc; eauto. Qed.
