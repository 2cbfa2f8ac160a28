(** * The exact outcome of a read *)
From Coq Require Import ZifyBool ZifyNat Lia Znumtheory.
From Verif Require Import PropDefs RExact ReadFacts ReadMore ReadLemmas Safety ReadFinal Rewrite WriteErr ExactFacts ProgFacts BytesFacts.
Import ListNotations.
Local Open Scope Z_scope.

(** A program fails exactly on the inputs with a fault. *)
Definition fails {E A} (p : rprog E A) (Fl : list Z -> E -> Prop) : Prop :=
  forall bs r, Forall byte_ok bs -> (fst (rmem p bs) = Err r <-> Fl bs r).

Lemma rmem_bind_err {E A B} (p : rprog E A) (f : A -> rprog E B) bs e :
  fst (rmem (rbind p f) bs) = Err e <->
  fst (rmem p bs) = Err e \/ exists a mid, rmem p bs = (Ok a, mid) /\ fst (rmem (f a) mid) = Err e.
Proof.
  rewrite rmem_bind. destruct (rmem p bs) as [[a|e'| | |] r]; simpl; split; intros H;
    try discriminate;
    try (destruct H as [H|(a' & mid & H & H')]; [discriminate H|]; inversion H; subst; auto; fail).
  - right. exists a, r. auto.
  - left. inversion H. auto.
  - destruct H as [H|(a' & mid & H & H')]; [inversion H; auto|discriminate].
Qed.

Lemma fails_bind {E A B} (p : rprog E A) (f : A -> rprog E B) P enc F1 F2 :
  parses p P enc -> fails p F1 -> (forall a, P a -> fails (f a) (F2 a)) ->
  fails (rbind p f) (fun bs r => F1 bs r \/ exists a rest, P a /\ bs = enc a ++ rest /\ F2 a rest r).
Proof.
  intros Hp H1 H2 bs r Hb. rewrite rmem_bind_err, (H1 bs r Hb). split.
  - intros [H|(a & mid & G1 & G2)]; [auto|]. pose proof (rmem_bytes _ _ _ _ Hb G1) as Hm.
    apply Hp in G1; auto. destruct G1 as [G1 ->]. right. exists a, mid. split; auto. split; auto.
    apply H2; auto.
  - intros [H|(a & rest & G1 & -> & G2)]; [auto|]. right. exists a, rest. split; [apply Hp; auto|].
    apply H2; auto. apply Forall_app in Hb. tauto.
Qed.

Lemma fails_ret {E A} (a : A) : fails (RRet a : rprog E A) (fun _ _ => False).
Proof. intros bs r Hb. simpl. split; [discriminate|tauto]. Qed.

Lemma fails_ext {E A} (p : rprog E A) F1 F2 : fails p F1 ->
  (forall bs r, F1 bs r <-> F2 bs r) -> fails p F2.
Proof. intros H H' bs r Hb. rewrite <- H'. auto. Qed.

Lemma fails_maperr {E E' A} (g : E -> E') (p : rprog E A) F1 : fails p F1 ->
  fails (rmaperr g p) (fun bs r => exists e, g e = r /\ F1 bs e).
Proof.
  intros H bs r Hb. rewrite rmem_maperr. specialize (H bs).
  destruct (rmem p bs) as [[a|e| | |] rest]; simpl in *.
  2:{ split.
      - intros X; inversion X. exists e. split; auto. apply H; auto.
      - intros (e' & <- & X). apply H in X; auto. inversion X. auto. }
  all: split; [discriminate|]; intros (e' & _ & X); apply H in X; auto; discriminate.
Qed.

Lemma fails_rrep {E A} (p : rprog E A) P enc F1 : parses p P enc -> fails p F1 -> forall n,
  fails (rrep n p) (fun bs r => exists xs rest, (length xs < n)%nat /\ Forall P xs /\
                                 bs = flat_map enc xs ++ rest /\ F1 rest r).
Proof.
  intros Hp H1. induction n as [|n IH]; cbn [rrep].
  - eapply fails_ext; [apply fails_ret|]. intros bs r. split; [tauto|].
    intros (xs & rest & H & _). lia.
  - eapply fails_ext.
    + eapply fails_bind; [exact Hp|exact H1|]. intros a Ha.
      eapply fails_bind; [apply parses_rrep; exact Hp|exact IH|]. intros l Hl. apply fails_ret.
    + intros bs r. cbv beta. split.
      * intros [H|(a & rest & Ha & -> & [(xs & rest' & X1 & X2 & -> & X3)|(l & rest' & _ & _ & [])])].
        -- exists [], bs. simpl. repeat split; auto; lia.
        -- exists (a :: xs), rest'. simpl. rewrite <- app_assoc. repeat split; auto; lia.
      * intros (xs & rest & X1 & X2 & -> & X3). destruct xs as [|a xs].
        -- left. auto.
        -- right. inversion X2; subst. exists a, (flat_map enc xs ++ rest). simpl.
           rewrite <- app_assoc. split; auto. split; auto. left. exists xs, rest. simpl in X1.
           repeat split; auto; lia.
Qed.

Lemma fails_check t k v : constr_ok t k = true -> has_ty t v ->
  fails (rcheck k v) (fun _ r => violates k v /\ r = ValidationFailure).
Proof.
  intros Hk Hv bs r Hb. pose proof (check_violates t k v Hk Hv) as Hf. unfold rcheck.
  destruct (check k v); simpl.
  2:{ split; [|intros [_ ->]; auto]. intros X; inversion X. split; auto. apply Hf; auto. }
  all: split; [discriminate|]; intros [X _]; apply Hf in X; discriminate.
Qed.

(** ** Leaves *)

Lemma fails_fixed c t n : (n <= csize t)%nat ->
  fails (read_fixed c t n) (fun bs r => (length bs < n)%nat /\ r = BufferExhaustion).
Proof.
  intros Hn bs r Hb. unfold read_fixed. destruct (Nat.ltb_spec (csize t) n); [lia|]. simpl.
  destruct (Z.leb_spec (Z.of_nat n) (Z.of_nat (length bs))).
  - destruct (load _ _ _); simpl; (split; [discriminate|intros [X _]; lia]).
  - simpl. split; [|intros [_ ->]; auto]. intros X; inversion X. split; auto. lia.
Qed.

Lemma fails_raw c esz len : 0 < esz -> 0 <= len -> len * esz < pow256 (c_szw c) ->
  fails (read_raw c esz len) (fun bs r => Z.of_nat (length bs) < len * esz /\ r = BufferExhaustion).
Proof.
  intros He Hl Hfit. unfold read_raw. destruct (c_cx c).
  - assert (P1 : @parses reason _ (RRead esz BufferExhaustion (fun bs => RRet bs))
                   (fun b => Z.of_nat (length b) = esz) (fun b => b)).
    { intros bs' a rest' Hb'. rewrite rmem_read_ok by lia. split.
      - intros (b & r & -> & H1 & H2). simpl in H2. inversion H2; subst. auto.
      - intros [H1 ->]. exists a, rest'. auto. }
    assert (F1 : @fails reason _ (RRead esz BufferExhaustion (fun bs => RRet bs))
                   (fun bs r => Z.of_nat (length bs) < esz /\ r = BufferExhaustion)).
    { intros bs r Hb. simpl. destruct (Z.leb_spec esz (Z.of_nat (length bs))); simpl.
      - split; [discriminate|]. intros [X _]. lia.
      - split; [|intros [_ ->]; auto]. intros X; inversion X. auto. }
    eapply fails_ext.
    + eapply fails_bind; [apply parses_rrep; exact P1|apply (fails_rrep _ _ _ _ P1 F1)|].
      intros l Hlf. apply fails_ret.
    + cbv beta. intros bs r. split.
      * intros [(xs & rest & X1 & X2 & -> & X3 & ->)|(l & rest & _ & _ & [])]. split; auto.
        rewrite app_length. rewrite flat_map_length_const with (w := Z.to_nat esz).
        -- nia.
        -- eapply Forall_impl; [|exact X2]. intros a Ha. simpl in Ha. lia.
      * intros [X ->]. left.
        set (q := Z.to_nat (Z.of_nat (length bs) / esz)).
        assert (Hq : Z.of_nat q = Z.of_nat (length bs) / esz).
        { unfold q. rewrite Z2Nat.id; auto. apply Z.div_pos; lia. }
        pose proof (Z.div_mod (Z.of_nat (length bs)) esz ltac:(lia)) as Hdm.
        pose proof (Z.mod_pos_bound (Z.of_nat (length bs)) esz He) as Hmb.
        assert (Hql : (q * Z.to_nat esz <= length bs)%nat) by nia.
        exists (chunks (Z.to_nat esz) q (firstn (q * Z.to_nat esz) bs)), (skipn (q * Z.to_nat esz) bs).
        assert (Hfl : length (firstn (q * Z.to_nat esz) bs) = (q * Z.to_nat esz)%nat)
          by (rewrite firstn_length; lia).
        rewrite chunks_length. split; [nia|]. split.
        -- apply Forall_forall. intros x Hx.
           assert (length x = Z.to_nat esz); [|lia]. clear -Hx Hfl.
           revert Hx Hfl. generalize (firstn (q * Z.to_nat esz) bs). generalize q.
           induction q0; intros l Hx Hfl; simpl in *; [tauto|]. destruct Hx as [<-|Hx].
           ++ rewrite firstn_length. lia.
           ++ apply (IHq0 (skipn (Z.to_nat esz) l)); auto. rewrite skipn_length. lia.
        -- rewrite flat_map_concat_map, map_id, concat_chunks by auto.
           rewrite firstn_skipn. split; auto. split; auto. rewrite skipn_length. nia.
  - assert (Hts : to_size c (len * esz) = len * esz) by (apply Z.mod_small; nia).
    rewrite Hts. intros bs r Hb. simpl. destruct (Z.leb_spec (len * esz) (Z.of_nat (length bs))); simpl.
    + split; [discriminate|]. intros [X _]. lia.
    + split; [|intros [_ ->]; auto]. intros X; inversion X. auto.
Qed.

Lemma fails_var c elt n b : ct_wf elt = true ->
  fails (read_var c elt (Z.of_nat n) b) (fun bs r =>
    (~ within c b (Z.of_nat (csize elt)) n /\ r = ExcessiveLength) \/
    (within c b (Z.of_nat (csize elt)) n /\ (length bs < n * csize elt)%nat /\ r = BufferExhaustion)).
Proof.
  intros Hw. pose proof (csize_pos _ Hw) as Hp. unfold read_var.
  pose proof (len_allowed_iff c b (Z.of_nat (csize elt)) n ltac:(lia)) as Hi.
  destruct (len_allowed _ _ _) eqn:Ea.
  - pose proof (len_allowed_fits c b (Z.of_nat (csize elt)) (Z.of_nat n) ltac:(lia) ltac:(lia) Ea) as Hf.
    eapply fails_ext with (F1 := fun bs r =>
      (Z.of_nat (length bs) < Z.of_nat n * Z.of_nat (csize elt) /\ r = BufferExhaustion) \/
      exists a rest, Z.of_nat (length a) = Z.of_nat n * Z.of_nat (csize elt) /\ bs = a ++ rest /\ False).
    + intros bs r Hb. cbn [rmem].
      apply (fails_bind _ _ _ _ _ (fun _ _ _ => False)
        (parses_raw c (Z.of_nat (csize elt)) (Z.of_nat n) ltac:(lia) ltac:(lia) Hf)
        (fails_raw c (Z.of_nat (csize elt)) (Z.of_nat n) ltac:(lia) ltac:(lia) Hf)); auto.
      intros a _ bs' r' _. destruct (sequence _); simpl; (split; [discriminate|tauto]).
    + intros bs r. cbv beta. split.
      * intros [[X ->]|(? & ? & _ & _ & [])]. right. split; [apply Hi; auto|]. split; auto. nia.
      * intros [[X _]|(_ & X & ->)]; [exfalso; apply X, Hi; auto|]. left. split; auto. nia.
  - intros bs r _. simpl. split.
    + intros X; inversion X. left. split; auto. intros Y. apply Hi in Y. discriminate.
    + intros [[_ ->]|[X _]]; auto. apply Hi in X. discriminate.
Qed.

(** ** The reader *)

Definition absent (seen : list ident) (E : env) : Prop :=
  forall id, memb id seen = false -> lookup E id = None.

Fixpoint rstops (c : cfg) (E : env) (gs : fields) (bs : list Z) (id : ident) (r : reason) : Prop :=
  match gs with
  | FNil => False
  | FCons i t k gs' =>
      (i = id /\ rfault_field c E t k bs r) \/
      exists v rest, valid_ty c E t v /\ bs = enc_ty (c_wire c) t v ++ rest /\ holds k v /\
        rstops c (E ++ [(i, v)]) gs' rest id r
  end.

Lemma rstops_fault c gs : forall E bs r,
  rfault_fields c E gs bs r <-> exists id, rstops c E gs bs id r.
Proof.
  induction gs as [|i t k gs IH]; intros E bs r; cbn [rfault_fields rstops].
  - split; [tauto|]. intros [_ []].
  - unfold rfault_field. split.
    + intros [H|(v & rest & H1 & H2 & [[H3 H4]|[H3 H4]])].
      * exists i. auto.
      * exists i. left. split; auto. right. eauto 6.
      * apply IH in H4. destruct H4 as [id H4]. exists id. right. eauto 7.
    + intros (id & [[-> [H|(v & rest & H1 & H2 & H3 & H4)]]|(v & rest & H1 & H2 & H3 & H4)]).
      * auto.
      * right. exists v, rest. auto.
      * right. exists v, rest. split; auto. split; auto. right. split; auto. apply IH. eauto.
Qed.

Definition rf_ty (t : fty) : Prop := forall c G seen e E,
  wf_ty seen t = true -> typed_ty G t = true -> agree seen e E -> covers seen E -> env_has G E ->
  fails (read_ty c e t) (rfault_ty c E t).
Definition rf_alts (al : alts) : Prop := forall c G seen e E i,
  wf_alts seen al = true -> typed_alts G al = true -> agree seen e E -> covers seen E -> env_has G E ->
  (i < a_len al)%nat -> fails (read_alts c e al i) (rfault_alts c E al i).
Definition rf_fields (fs : fields) : Prop := forall c G seen e E,
  wf_fields seen fs = true -> typed_fields G fs = true -> agree seen e E -> covers seen E ->
  env_has G E -> absent seen E -> dom fs e ->
  fails (read_fields c e fs) (fun bs e => rstops c E fs bs (snd e) (fst e)).

Lemma lookup_app E id v i : lookup (E ++ [(id, v)]) i =
  match lookup E i with Some w => Some w | None => if String.eqb id i then Some v else None end.
Proof.
  induction E as [|[j w] E IH]; simpl.
  - reflexivity.
  - destruct (String.eqb j i); auto.
Qed.

Lemma rf_record fs : rf_fields fs -> forall c, wf fs = true -> typed fs = true ->
  fails (rbind (rmaperr fst (read_fields c (mk_env fs (default_fields fs)) fs))
               (fun vs => RRet (VRec vs)))
        (rfault_fields c [] fs).
Proof.
  intros H c Hw Ht bs r Hb.
  assert (Hf : fails (read_fields c (mk_env fs (default_fields fs)) fs)
                 (fun bs e => rstops c [] fs bs (snd e) (fst e))).
  { apply (H c [] []); auto.
    - intros id; discriminate.
    - intros id [].
    - intros id t; discriminate.
    - intros id _. auto.
    - apply dom_mk_env, default_fields_length. }
  rewrite rmem_bind_err, (fails_maperr fst _ _ Hf bs r Hb), rstops_fault. split.
  - intros [([r' id] & <- & X)|(a & mid & _ & X)]; [eauto|discriminate].
  - intros [id X]. left. exists (r, id). auto.
Qed.

Lemma fails_checked (p : rprog reason val) P enc F1 t k : parses p P enc -> fails p F1 ->
  constr_ok t k = true -> (forall v, P v -> has_ty t v) ->
  fails (rbind p (rcheck k)) (fun bs r => F1 bs r \/ exists v rest, P v /\ bs = enc v ++ rest /\
           violates k v /\ r = ValidationFailure).
Proof.
  intros Hp H1 Hk Hv. eapply fails_bind; eauto. intros a Ha. eapply fails_check; eauto.
Qed.

Lemma fails_fun {E A B} (p : rprog E A) (f : A -> B) F1 : fails p F1 ->
  fails (rbind p (fun a => RRet (f a))) F1.
Proof.
  intros H bs r Hb. rewrite rmem_bind_err, (H bs r Hb). split; [|auto].
  intros [X|(a & mid & _ & X)]; [auto|discriminate].
Qed.

Lemma reader_fails : (forall t, rf_ty t) /\ (forall fs, rf_fields fs) /\ (forall al, rf_alts al).
Proof.
  destruct valid_has as (Hvt & _ & _). destruct reader_correct as (Hrt & Hrf & _).
  apply schema_mutind.
  - intros t n c G seen e E Hw Ht Ha Hc Hg. cbn [wf_ty read_ty rfault_ty] in *.
    apply andb_true_iff in Hw. destruct Hw as [H1 H2]. apply fails_fixed. destruct t; lia.
  - intros elt l b c G seen e E Hw Ht Ha Hc Hg. cbn [wf_ty typed_ty read_ty rfault_ty] in *.
    apply andb_true_iff in Hw. destruct Hw as [H1 H2].
    rewrite (deduce_len_agree c _ _ _ _ Ha H2).
    destruct (len_value_is c E l (len_value_typed _ _ _ _ Hg Hc H2 Ht)) as [n Hn].
    rewrite (deduce_len_complete _ _ _ _ Hn).
    eapply fails_ext; [apply fails_var; auto|]. intros bs r. cbv beta. split.
    + intros X. exists n. auto.
    + intros (m & Hm & X). apply deduce_len_complete in Hn. apply deduce_len_complete in Hm.
      assert (m = n) by (assert (Some (Z.of_nat m) = Some (Z.of_nat n)) as Q by congruence;
                         inversion Q; lia). subst. auto.
  - intros fs IH c G seen e E Hw Ht Ha Hc Hg. cbn [wf_ty typed_ty read_ty rfault_ty] in *.
    apply rf_record; auto.
  - intros n fs IH c G seen e E Hw Ht Ha Hc Hg. cbn [wf_ty typed_ty read_ty rfault_ty] in *.
    apply fails_fun.
    eapply fails_ext; [eapply fails_rrep; [apply (pt_struct fs (Hrf fs) c Hw)|apply rf_record; auto]|].
    intros bs r. reflexivity.
  - intros fs IH recsz l b c G seen e E Hw Ht Ha Hc Hg. cbn [wf_ty typed_ty read_ty rfault_ty] in *.
    apply andb_true_iff in Hw. destruct Hw as [Hw H2]. apply andb_true_iff in Hw. destruct Hw as [Hw H3].
    apply andb_true_iff in Ht. destruct Ht as [T1 T2]. apply Z.ltb_lt in H3.
    rewrite (deduce_len_agree c _ _ _ _ Ha H2).
    destruct (len_value_is c E l (len_value_typed _ _ _ _ Hg Hc H2 T2)) as [n Hn].
    rewrite (deduce_len_complete _ _ _ _ Hn).
    pose proof (len_allowed_iff c b recsz n H3) as Hi.
    assert (Hu : forall m, len_is c E l m -> m = n).
    { intros m Hm. apply deduce_len_complete in Hn. apply deduce_len_complete in Hm.
      assert (Some (Z.of_nat m) = Some (Z.of_nat n)) as Q by congruence. inversion Q; lia. }
    destruct (len_allowed _ _ _).
    + intros bs r Hb. cbn [rmem]. rewrite Nat2Z.id.
      pose proof (fails_rrep _ _ _ _ (pt_struct fs (Hrf fs) c Hw) (rf_record fs IH c Hw T1) n) as Hf.
      rewrite (fails_fun _ VSeq _ Hf bs r Hb). split.
      * intros X. exists n. split; auto. right. split; [apply Hi; auto|exact X].
      * intros (m & Hm & [[X _]|[_ X]]); apply Hu in Hm; subst m; [|exact X].
        exfalso. apply X, Hi. auto.
    + intros bs r Hb. simpl. split.
      * intros X; inversion X. exists n. split; auto. left. split; auto. intros Y. apply Hi in Y. discriminate.
      * intros (m & Hm & [[_ ->]|[X _]]); auto. apply Hu in Hm; subst m. apply Hi in X. discriminate.
  - intros b IH p ids c G seen e E Hw Ht Ha Hc Hg. cbn [wf_ty typed_ty read_ty rfault_ty] in *.
    apply andb_true_iff in Hw. destruct Hw as [H1 H2]. apply andb_true_iff in Ht. destruct Ht as [T1 T2].
    rewrite (agree_lookups _ _ _ _ Ha H1).
    destruct (covers_lookups seen E ids Hc H1) as [args El]. rewrite El. destruct (p args) eqn:Ep.
    + eapply fails_ext; [apply fails_fun; eapply IH; eauto|]. intros bs r. split.
      * intros X. exists args. auto.
      * intros (a & _ & _ & X). auto.
    + eapply fails_ext; [apply fails_ret|]. intros bs r. split; [tauto|].
      intros (a & X & Y & _). congruence.
  - intros g al IH c G seen e E Hw Ht Ha Hc Hg. cbn [wf_ty typed_ty read_ty rfault_ty] in *.
    apply andb_true_iff in Hw. destruct Hw as [H1 H2]. apply andb_true_iff in Ht. destruct Ht as [T1 T2].
    rewrite (deduce_type_agree _ _ _ _ Ha H1).
    destruct (deduce_type_total _ _ _ _ _ Hg Hc H1 T1) as (r0 & Ed & Hlt). rewrite Ed.
    destruct r0 as [i|].
    + eapply fails_ext; [apply fails_fun; eapply IH; eauto|]. intros bs r.
      pose proof (proj1 (deduce_type_iff E g i) Ed) as Hs. split.
      * intros X. right. eauto.
      * intros [[X _]|(j & X & Y)]; [exfalso; eapply X; eauto|].
        apply deduce_type_iff in X. assert (j = i) by congruence. subst. auto.
    + intros bs r _. simpl. split.
      * intros X; inversion X. left. split; auto. intros i Hi. apply deduce_type_iff in Hi. congruence.
      * intros [[_ ->]|(i & X & _)]; auto. apply deduce_type_iff in X. congruence.
  - intros c G seen e E Hw Ht Ha Hc Hg Hab Hd. cbn [read_fields rstops]. apply fails_ret.
  - intros id t IHt k fs IHfs c G seen e E Hw Ht Ha Hc Hg Hab Hd.
    cbn [wf_fields typed_fields read_fields rstops] in *.
    apply andb_true_iff in Hw. destruct Hw as [Hw H3]. apply andb_true_iff in Hw. destruct Hw as [H1 H2].
    apply andb_true_iff in Ht. destruct Ht as [Ht T3]. apply andb_true_iff in Ht. destruct Ht as [T1 T2].
    apply negb_true_iff in H1.
    assert (Hd1 : exists w, lookup e id = Some w) by (apply Hd; left; auto).
    assert (Hd2 : dom fs e) by (intros id' Hin; apply Hd; right; auto).
    pose proof (Hab id H1) as HE.
    eapply fails_ext.
    + eapply fails_bind with
        (F2 := fun v bs r => rstops c (E ++ [(id, v)]) fs bs (snd r) (fst r)).
      * exact (parses_maperr (fun r => (r, id)) _ _ _ (parses_checked k (Hrt t c seen e E H2 Ha))).
      * apply fails_maperr. eapply fails_checked; [apply (Hrt t c seen e E); auto| |exact T2|apply Hvt].
        eapply IHt; eauto.
      * intros v [Hv _]. apply fails_fun. eapply (IHfs c ((id, t) :: G) (id :: seen)); auto.
        -- intros i Hi. destruct (String.eqb_spec id i) as [->|Hn].
           ++ rewrite lookup_update_same by auto. rewrite lookup_app, HE, String.eqb_refl. auto.
           ++ rewrite lookup_update_other by auto. simpl in Hi. apply orb_true_iff in Hi. destruct Hi as [Hi|Hi];
                [apply String.eqb_eq in Hi; congruence|].
              rewrite Ha by auto. rewrite lookup_app. destruct (lookup E i); auto.
              rewrite (proj2 (String.eqb_neq id i) Hn). auto.
        -- intros i [->|Hi]; rewrite lookup_app.
           ++ rewrite HE, String.eqb_refl. eauto.
           ++ destruct (Hc i Hi) as [w ->]. eauto.
        -- intros i t' Hl. simpl in Hl. rewrite lookup_app. destruct (String.eqb_spec id i) as [->|Hn].
           ++ inversion Hl; subst. rewrite HE. exists v. split; auto. eapply Hvt; eauto.
           ++ destruct (Hg i t' Hl) as (w & -> & Hw). eauto.
        -- intros i Hi. simpl in Hi. apply orb_false_iff in Hi. destruct Hi as [Hi1 Hi2].
           rewrite lookup_app, (Hab i Hi2). destruct (String.eqb_spec id i); auto. subst.
           rewrite String.eqb_refl in Hi1. discriminate.
        -- apply dom_update; auto.
    + intros bs [r i]. cbn [fst snd]. unfold rfault_field. split.
      * intros [(e' & X & Y)|(v & rest & [X1 X2] & X3 & X4)].
        -- inversion X; subst. left. auto.
        -- right. exists v, rest. auto.
      * intros [[-> X]|(v & rest & X1 & X2 & X3 & X4)].
        -- left. exists r. auto.
        -- right. exists v, rest. auto.
  - intros c G seen e E i Hw Ht Ha Hc Hg Hi. simpl in Hi. lia.
  - intros t IHt k al IHal c G seen e E i Hw Ht Ha Hc Hg Hi.
    cbn [wf_alts typed_alts] in *.
    apply andb_true_iff in Hw. destruct Hw as [H1 H2]. apply andb_true_iff in Ht. destruct Ht as [Ht T3].
    apply andb_true_iff in Ht. destruct Ht as [Ht T2]. apply andb_true_iff in Ht. destruct Ht as [T0 T1].
    destruct i as [|i]; cbn [read_alts rfault_alts].
    + eapply fails_checked; [apply (Hrt t c seen e E); auto| |exact T2|apply Hvt].
      eapply IHt; eauto.
    + eapply IHal; eauto. simpl in Hi. lia.
Qed.

(** ** The cast *)

Lemma mk_env_snoc pre : forall vs id t k v, length vs = f_len pre ->
  mk_env (f_app pre (FCons id t k FNil)) (vs ++ [v]) = mk_env pre vs ++ [(id, v)].
Proof.
  induction pre; intros [|w vs] id' t' k' v' H; simpl in *; try discriminate; auto.
  rewrite IHpre; auto.
Qed.

Lemma valid_ty_agree c seen E E' t v : wf_ty seen t = true -> agree seen E E' ->
  (valid_ty c E t v <-> valid_ty c E' t v).
Proof.
  intros Hw Ha. destruct reader_correct as (Hr & _ & _). destruct enc_bytes as (Hb & _ & _).
  assert (X : forall D, agree seen E D -> valid_ty c D t v -> rmem (read_ty c E t) (enc_ty (c_wire c) t v) = (Ok v, [])).
  { intros D HD Hv. apply (Hr t c seen E D); auto.
    - eapply Hb; eauto.
    - rewrite app_nil_r. auto. }
  assert (Hs : agree seen E E) by (intros id _; auto).
  split; intros Hv.
  - pose proof (X E Hs Hv) as Y. apply (Hr t c seen E E' Hw Ha) in Y; [tauto|]. eapply Hb; eauto.
  - pose proof (X E' Ha Hv) as Y. apply (Hr t c seen E E Hw Hs) in Y; [tauto|]. eapply Hb; eauto.
Qed.

Lemma rstops_at c gs : forall pre0 (vs0 : list val) bs id r, wf (f_app pre0 gs) = true ->
  length vs0 = f_len pre0 ->
  (rstops c (mk_env pre0 vs0) gs bs id r <->
   exists pre t k post (vs : list val) rest, gs = f_app pre (FCons id t k post) /\
     length vs = f_len pre /\
     valid_fields c (mk_env (f_app pre0 pre) (vs0 ++ vs)) pre vs /\
     bs = enc_fields (c_wire c) pre vs ++ rest /\
     rfault_field c (mk_env (f_app pre0 pre) (vs0 ++ vs)) t k rest r).
Proof.
  induction gs as [|i t k gs IH]; intros pre0 vs0 bs id r Hw Hl; cbn [rstops].
  - split; [tauto|]. intros (pre & t & k & post & vs & rest & E & _). destruct pre; discriminate.
  - assert (Hw' : wf (f_app (f_app pre0 (FCons i t k FNil)) gs) = true)
      by (rewrite f_app_assoc; exact Hw).
    assert (Hl' : forall v, length (vs0 ++ [v]) = f_len (f_app pre0 (FCons i t k FNil))).
    { intros v. rewrite app_length, Hl. clear. induction pre0; simpl; auto. }
    assert (Hag : forall v gs' vs', valid_ty c (mk_env pre0 vs0) t v <->
                  valid_ty c (mk_env (f_app pre0 gs') (vs0 ++ vs')) t v).
    { intros v gs' vs'. unfold wf in Hw. apply wf_fields_app in Hw. destruct Hw as [_ Hw].
      cbn [wf_fields] in Hw. apply andb_true_iff in Hw. destruct Hw as [Hw _].
      apply andb_true_iff in Hw. destruct Hw as [_ Hw].
      eapply valid_ty_agree; [exact Hw|]. intros j Hj. apply memb_In in Hj.
      rewrite app_nil_r in Hj. apply in_rev in Hj. symmetry. apply lookup_mk_env_app; auto. }
    split.
    + intros [[-> H]|(v & rest & H1 & H2 & H3 & H4)].
      * exists FNil, t, k, gs, [], bs. rewrite f_app_nil, app_nil_r. simpl. auto.
      * rewrite <- (mk_env_snoc pre0 vs0 i t k v Hl) in H4. apply IH in H4; auto.
        destruct H4 as (pre & t' & k' & post & vs & rest' & -> & L & V & -> & F).
        rewrite f_app_assoc, <- app_assoc in V, F. simpl in V, F.
        exists (FCons i t k pre), t', k', post, (v :: vs), rest'. simpl. split; auto. split; auto.
        split; [|split; [rewrite <- app_assoc; auto|exact F]].
        split; [apply (Hag v (FCons i t k pre) (v :: vs)); auto|]. auto.
    + intros (pre & t' & k' & post & vs & rest & E1 & L & V & E2 & F).
      destruct pre as [|i' t'' k'' pre].
      * destruct vs; [|discriminate L]. simpl in E1, E2. inversion E1; subst.
        rewrite f_app_nil, app_nil_r in F. auto.
      * destruct vs as [|v vs]; [discriminate L|]. simpl in E1, L. inversion E1; subst i' t'' k'' gs.
        cbn [valid_fields] in V. destruct V as (V1 & V2 & V3). right.
        exists v, (enc_fields (c_wire c) pre vs ++ rest).
        split; [apply (Hag v (FCons i t k pre) (v :: vs)); auto|].
        split; [rewrite E2; simpl; rewrite <- app_assoc; auto|]. split; auto.
        rewrite <- (mk_env_snoc pre0 vs0 i t k v Hl). apply IH; auto.
        exists pre, t', k', post, vs, rest. rewrite f_app_assoc, <- app_assoc. simpl. auto 8.
Qed.

Lemma read_err_iff c fs bs r id : wf fs = true -> typed fs = true -> Forall byte_ok bs ->
  (fst (rmem (struct_cast c fs) bs) = Err (r, id) <->
   exists pre t k post vs rest, fs = f_app pre (FCons id t k post) /\
     valid c pre vs /\ bs = enc_fields (c_wire c) pre vs ++ rest /\
     rfault_field c (mk_env pre vs) t k rest r).
Proof.
  intros Hw Ht Hb. destruct reader_fails as (_ & Hf & _).
  assert (X : fails (struct_cast c fs) (fun bs e => rstops c [] fs bs (snd e) (fst e))).
  { apply (Hf fs c [] []); auto.
    - intros i; discriminate.
    - intros i [].
    - intros i t; discriminate.
    - intros i _. auto.
    - apply dom_mk_env, default_fields_length. }
  rewrite (X bs (r, id) Hb). cbn [fst snd].
  rewrite (rstops_at c fs FNil [] bs id r Hw eq_refl). simpl. unfold valid. split.
  - intros (pre & t & k & post & vs & rest & X1 & X2 & X3 & X4 & X5).
    exists pre, t, k, post, vs, rest. auto.
  - intros (pre & t & k & post & vs & rest & X1 & X2 & X3 & X4).
    exists pre, t, k, post, vs, rest. split; auto. split; auto.
    eapply valid_fields_length; eauto.
Qed.

Lemma read_decided c fs bs : wf fs = true -> typed fs = true -> plain_fields fs = true ->
  Forall byte_ok bs ->
  (exists vs rest, valid c fs vs /\ bs = enc_fields (c_wire c) fs vs ++ rest) \/
  (exists pre id t k post vs rest r, fs = f_app pre (FCons id t k post) /\
     valid c pre vs /\ bs = enc_fields (c_wire c) pre vs ++ rest /\
     rfault_field c (mk_env pre vs) t k rest r).
Proof.
  intros Hw Ht Hp Hb.
  pose proof (rsafe_mem False _ _ (struct_cast_safe c False fs Hw Ht (or_introl Hp))) as Hs.
  destruct (Hs ltac:(eapply rall_impl; [| | | |apply (struct_cast_all c fs Hw)]; auto) bs Hb)
    as (S1 & S2 & _).
  destruct (rmem (struct_cast c fs) bs) as [o rest] eqn:E. simpl in *.
  destruct o as [vs|[r id]| | |].
  - left. exists vs, rest. apply struct_cast_correct; auto.
  - right. pose proof (proj1 (read_err_iff c fs bs r id Hw Ht Hb)) as X. rewrite E in X.
    destruct (X eq_refl) as (pre & t & k & post & vs & rest' & Y). exists pre, id, t, k, post, vs, rest', r. auto.
  - exfalso. apply S2. auto.
  - congruence.
  - exfalso. apply (rmem_no_throw (struct_cast c fs) bs). rewrite E. auto.
Qed.

Lemma read_ok_iff c fs bs vs rest : wf fs = true -> Forall byte_ok bs ->
  (rmem (struct_cast c fs) bs = (Ok vs, rest) <->
   valid c fs vs /\ bs = enc_fields (c_wire c) fs vs ++ rest).
Proof. apply struct_cast_correct. Qed.
