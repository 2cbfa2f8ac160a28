(** * Where a failed read leaves the stream: proofs *)
From Coq Require Import ZifyBool ZifyNat Lia Znumtheory.
From Verif Require Import PropDefs RStop ReadFacts ReadMore ReadLemmas Safety ReadFinal Rewrite WriteErr ExactFacts ProgFacts BytesFacts StreamFacts RExactFacts.
Import ListNotations.
Local Open Scope Z_scope.

(** A program fails, leaving [left], exactly on the inputs described. *)
Definition stops {E A} (p : rprog E A) (Fl : list Z -> E -> list Z -> Prop) : Prop :=
  forall bs r left, Forall byte_ok bs -> (rmem p bs = (Err r, left) <-> Fl bs r left).

Lemma rmem_bind_stop {E A B} (p : rprog E A) (f : A -> rprog E B) bs e left :
  rmem (rbind p f) bs = (Err e, left) <->
  rmem p bs = (Err e, left) \/
  exists a mid, rmem p bs = (Ok a, mid) /\ rmem (f a) mid = (Err e, left).
Proof.
  rewrite rmem_bind. destruct (rmem p bs) as [[a|e'| | |] r]; simpl; split; intros H;
    try discriminate;
    try (destruct H as [H|(a' & mid & H & H')]; [discriminate H|]; inversion H; subst; auto; fail).
  - right. exists a, r. auto.
  - left. inversion H. auto.
  - destruct H as [H|(a' & mid & H & H')]; [inversion H; auto|discriminate].
Qed.

Lemma stops_bind {E A B} (p : rprog E A) (f : A -> rprog E B) P enc F1 F2 :
  parses p P enc -> stops p F1 -> (forall a, P a -> stops (f a) (F2 a)) ->
  stops (rbind p f) (fun bs r left =>
    F1 bs r left \/ exists a rest, P a /\ bs = enc a ++ rest /\ F2 a rest r left).
Proof.
  intros Hp H1 H2 bs r left Hb. rewrite rmem_bind_stop, (H1 bs r left Hb). split.
  - intros [H|(a & mid & G1 & G2)]; [auto|]. pose proof (rmem_bytes _ _ _ _ Hb G1) as Hm.
    apply Hp in G1; auto. destruct G1 as [G1 ->]. right. exists a, mid. split; auto. split; auto.
    apply H2; auto.
  - intros [H|(a & rest & G1 & -> & G2)]; [auto|]. right. exists a, rest. split; [apply Hp; auto|].
    apply H2; auto. apply Forall_app in Hb. tauto.
Qed.

Lemma stops_ret {E A} (a : A) : stops (RRet a : rprog E A) (fun _ _ _ => False).
Proof. intros bs r left Hb. simpl. split; [discriminate|tauto]. Qed.

Lemma stops_ext {E A} (p : rprog E A) F1 F2 : stops p F1 ->
  (forall bs r left, F1 bs r left <-> F2 bs r left) -> stops p F2.
Proof. intros H H' bs r left Hb. rewrite <- H'. auto. Qed.

Lemma stops_maperr {E E' A} (g : E -> E') (p : rprog E A) F1 : stops p F1 ->
  stops (rmaperr g p) (fun bs r left => exists e, g e = r /\ F1 bs e left).
Proof.
  intros H bs r left Hb. rewrite rmem_maperr. specialize (H bs).
  destruct (rmem p bs) as [[a|e| | |] rest]; simpl in *.
  2:{ split.
      - intros X; inversion X; subst. exists e. split; auto. apply H; auto.
      - intros (e' & <- & X). apply H in X; auto. inversion X. auto. }
  all: split; [discriminate|]; intros (e' & _ & X); apply H in X; auto; discriminate.
Qed.

Lemma stops_rrep {E A} (p : rprog E A) P enc F1 : parses p P enc -> stops p F1 -> forall n,
  stops (rrep n p) (fun bs r left => exists xs rest, (length xs < n)%nat /\ Forall P xs /\
                                 bs = flat_map enc xs ++ rest /\ F1 rest r left).
Proof.
  intros Hp H1. induction n as [|n IH]; cbn [rrep].
  - eapply stops_ext; [apply stops_ret|]. intros bs r left. split; [tauto|].
    intros (xs & rest & H & _). lia.
  - eapply stops_ext.
    + eapply stops_bind; [exact Hp|exact H1|]. intros a Ha.
      eapply stops_bind; [apply parses_rrep; exact Hp|exact IH|]. intros l Hl. apply stops_ret.
    + intros bs r left. cbv beta. split.
      * intros [H|(a & rest & Ha & -> & [(xs & rest' & X1 & X2 & -> & X3)|(l & rest' & _ & _ & [])])].
        -- exists [], bs. simpl. repeat split; auto; lia.
        -- exists (a :: xs), rest'. simpl. rewrite <- app_assoc. repeat split; auto; lia.
      * intros (xs & rest & X1 & X2 & -> & X3). destruct xs as [|a xs].
        -- left. auto.
        -- right. inversion X2; subst. exists a, (flat_map enc xs ++ rest). simpl.
           rewrite <- app_assoc. split; auto. split; auto. left. exists xs, rest. simpl in X1.
           repeat split; auto; lia.
Qed.

Lemma stops_check t k v : constr_ok t k = true -> has_ty t v ->
  stops (rcheck k v) (fun bs r left => violates k v /\ r = ValidationFailure /\ left = bs).
Proof.
  intros Hk Hv bs r left Hb. pose proof (check_violates t k v Hk Hv) as Hf. unfold rcheck.
  destruct (check k v); simpl.
  2:{ split; [|intros (_ & -> & ->); auto]. intros X; inversion X. split; auto. apply Hf; auto. }
  all: split; [discriminate|]; intros [X _]; apply Hf in X; discriminate.
Qed.

(** ** Leaves *)

Lemma stops_fixed c t n : (n <= csize t)%nat ->
  stops (read_fixed c t n)
        (fun bs r left => (length bs < n)%nat /\ r = BufferExhaustion /\ left = bs).
Proof.
  intros Hn bs r left Hb. unfold read_fixed. destruct (Nat.ltb_spec (csize t) n); [lia|]. simpl.
  destruct (Z.leb_spec (Z.of_nat n) (Z.of_nat (length bs))).
  - destruct (load _ _ _); simpl; (split; [discriminate|intros [X _]; lia]).
  - simpl. split; [|intros (_ & -> & ->); auto]. intros X; inversion X; subst. split; [lia|auto].
Qed.

Lemma stops_raw c esz len : (0 < esz)%nat -> (0 <= len) ->
  len * Z.of_nat esz < pow256 (c_szw c) ->
  stops (read_raw c (Z.of_nat esz) len)
        (fun bs r left => Z.of_nat (length bs) < len * Z.of_nat esz /\ r = BufferExhaustion /\
                          gave_up c esz bs left).
Proof.
  intros He Hl Hfit. unfold read_raw, gave_up. destruct (c_cx c).
  - assert (P1 : @parses reason _ (RRead (Z.of_nat esz) BufferExhaustion (fun bs => RRet bs))
                   (fun b => length b = esz) (fun b => b)).
    { intros bs' a rest' Hb'. rewrite rmem_read_ok by lia. split.
      - intros (b & r & -> & H1 & H2). simpl in H2. inversion H2; subst. split; auto. lia.
      - intros [H1 ->]. exists a, rest'. repeat split; auto; lia. }
    assert (F1 : @stops reason _ (RRead (Z.of_nat esz) BufferExhaustion (fun bs => RRet bs))
                   (fun bs r left => (length bs < esz)%nat /\ r = BufferExhaustion /\ left = bs)).
    { intros bs r left Hb. simpl.
      destruct (Z.leb_spec (Z.of_nat esz) (Z.of_nat (length bs))); simpl.
      - split; [discriminate|]. intros [X _]. lia.
      - split; [|intros (_ & -> & ->); auto]. intros X; inversion X; subst. split; auto. lia. }
    eapply stops_ext.
    + eapply stops_bind; [apply parses_rrep; exact P1|apply (stops_rrep _ _ _ _ P1 F1)|].
      intros l Hlf. apply stops_ret.
    + cbv beta. intros bs r left. split.
      * intros [(xs & rest & X1 & X2 & -> & X3 & -> & ->)|(l & rest & _ & _ & [])].
        assert (Hfm : length (flat_map (fun b : list Z => b) xs) = (length xs * esz)%nat)
          by (apply flat_map_length_const; auto).
        split; [rewrite app_length, Hfm; nia|]. split; auto. split; auto.
        exists (flat_map (fun b : list Z => b) xs), (length xs). auto.
      * intros (X & -> & Hlt & used & q & -> & Hu). left.
        exists (chunks esz q used), left. rewrite chunks_length. rewrite app_length in X.
        split; [nia|]. split.
        -- apply Forall_forall. intros x Hx. clear -Hx Hu. revert used Hx Hu.
           induction q as [|q IH]; intros l Hx Hu; simpl in *; [tauto|]. destruct Hx as [<-|Hx].
           ++ rewrite firstn_length. lia.
           ++ apply (IH (skipn esz l)); auto. rewrite skipn_length. lia.
        -- rewrite flat_map_concat_map, map_id, concat_chunks by auto. auto.
  - assert (Hts : to_size c (len * Z.of_nat esz) = len * Z.of_nat esz) by (apply Z.mod_small; nia).
    rewrite Hts. intros bs r left Hb. simpl.
    destruct (Z.leb_spec (len * Z.of_nat esz) (Z.of_nat (length bs))); simpl.
    + split; [discriminate|]. intros [X _]. lia.
    + split; [|intros (_ & -> & ->); auto]. intros X; inversion X; subst. auto.
Qed.

Lemma stops_var c elt n b : ct_wf elt = true ->
  stops (read_var c elt (Z.of_nat n) b) (fun bs r left =>
    (~ within c b (Z.of_nat (csize elt)) n /\ r = ExcessiveLength /\ left = bs) \/
    (within c b (Z.of_nat (csize elt)) n /\ (length bs < n * csize elt)%nat /\
     r = BufferExhaustion /\ gave_up c (csize elt) bs left)).
Proof.
  intros Hw. pose proof (csize_pos _ Hw) as Hp. unfold read_var.
  pose proof (len_allowed_iff c b (Z.of_nat (csize elt)) n ltac:(lia)) as Hi.
  destruct (len_allowed _ _ _) eqn:Ea.
  - pose proof (len_allowed_fits c b (Z.of_nat (csize elt)) (Z.of_nat n) ltac:(lia) ltac:(lia) Ea) as Hf.
    eapply stops_ext with (F1 := fun bs r left =>
      (Z.of_nat (length bs) < Z.of_nat n * Z.of_nat (csize elt) /\ r = BufferExhaustion /\
       gave_up c (csize elt) bs left) \/
      exists a rest, Z.of_nat (length a) = Z.of_nat n * Z.of_nat (csize elt) /\ bs = a ++ rest /\ False).
    + intros bs r left Hb. cbn [rmem].
      apply (stops_bind _ _ _ _ _ (fun _ _ _ _ => False)
        (parses_raw c (Z.of_nat (csize elt)) (Z.of_nat n) ltac:(lia) ltac:(lia) Hf)
        (stops_raw c (csize elt) (Z.of_nat n) ltac:(lia) ltac:(lia) Hf)); auto.
      intros a _ bs' r' left' _. destruct (sequence _); simpl; (split; [discriminate|tauto]).
    + intros bs r left. cbv beta. split.
      * intros [(X & -> & Y)|(? & ? & _ & _ & [])]. right. split; [apply Hi; auto|]. split; auto. nia.
      * intros [[X _]|(_ & X & -> & Y)]; [exfalso; apply X, Hi; auto|]. left. split; auto. nia.
  - intros bs r left _. simpl. split.
    + intros X; inversion X. left. split; auto. intros Y. apply Hi in Y. discriminate.
    + intros [(_ & -> & ->)|[X _]]; auto. apply Hi in X. discriminate.
Qed.

(** ** The reader *)

Fixpoint rleaves (c : cfg) (E : env) (gs : fields) (bs : list Z) (id : ident) (r : reason)
  (left : list Z) : Prop :=
  match gs with
  | FNil => False
  | FCons i t k gs' =>
      (i = id /\ rstop_field c E t k bs r left) \/
      exists v rest, valid_ty c E t v /\ bs = enc_ty (c_wire c) t v ++ rest /\ holds k v /\
        rleaves c (E ++ [(i, v)]) gs' rest id r left
  end.

Lemma rleaves_stop c gs : forall E bs r left,
  rstop_fields c E gs bs r left <-> exists id, rleaves c E gs bs id r left.
Proof.
  induction gs as [|i t k gs IH]; intros E bs r left; cbn [rstop_fields rleaves].
  - split; [tauto|]. intros [_ []].
  - unfold rstop_field. split.
    + intros [H|(v & rest & H1 & H2 & [(H3 & H4 & H5)|[H3 H4]])].
      * exists i. auto.
      * exists i. left. split; auto. right. eauto 7.
      * apply IH in H4. destruct H4 as [id H4]. exists id. right. eauto 7.
    + intros (id & [[-> [H|(v & rest & H1 & H2 & H3 & H4 & H5)]]|(v & rest & H1 & H2 & H3 & H4)]).
      * auto.
      * right. exists v, rest. split; auto.
      * right. exists v, rest. split; auto. split; auto. right. split; auto. apply IH. eauto.
Qed.

Definition rp_ty (t : fty) : Prop := forall c G seen e E,
  wf_ty seen t = true -> typed_ty G t = true -> agree seen e E -> covers seen E -> env_has G E ->
  stops (read_ty c e t) (rstop_ty c E t).
Definition rp_alts (al : alts) : Prop := forall c G seen e E i,
  wf_alts seen al = true -> typed_alts G al = true -> agree seen e E -> covers seen E -> env_has G E ->
  (i < a_len al)%nat -> stops (read_alts c e al i) (rstop_alts c E al i).
Definition rp_fields (fs : fields) : Prop := forall c G seen e E,
  wf_fields seen fs = true -> typed_fields G fs = true -> agree seen e E -> covers seen E ->
  env_has G E -> absent seen E -> dom fs e ->
  stops (read_fields c e fs) (fun bs e left => rleaves c E fs bs (snd e) (fst e) left).

Lemma rp_record fs : rp_fields fs -> forall c, wf fs = true -> typed fs = true ->
  stops (rbind (rmaperr fst (read_fields c (mk_env fs (default_fields fs)) fs))
               (fun vs => RRet (VRec vs)))
        (rstop_fields c [] fs).
Proof.
  intros H c Hw Ht bs r left Hb.
  assert (Hf : stops (read_fields c (mk_env fs (default_fields fs)) fs)
                 (fun bs e left => rleaves c [] fs bs (snd e) (fst e) left)).
  { apply (H c [] []); auto.
    - intros id; discriminate.
    - intros id [].
    - intros id t; discriminate.
    - intros id _. auto.
    - apply dom_mk_env, default_fields_length. }
  rewrite rmem_bind_stop, (stops_maperr fst _ _ Hf bs r left Hb), rleaves_stop. split.
  - intros [([r' id] & <- & X)|(a & mid & _ & X)]; [eauto|discriminate].
  - intros [id X]. left. exists (r, id). auto.
Qed.

Lemma stops_checked (p : rprog reason val) P enc F1 t k : parses p P enc -> stops p F1 ->
  constr_ok t k = true -> (forall v, P v -> has_ty t v) ->
  stops (rbind p (rcheck k)) (fun bs r left => F1 bs r left \/
    exists v rest, P v /\ bs = enc v ++ rest /\ violates k v /\ r = ValidationFailure /\ left = rest).
Proof.
  intros Hp H1 Hk Hv. eapply stops_bind; eauto. intros a Ha. eapply stops_check; eauto.
Qed.

Lemma stops_fun {E A B} (p : rprog E A) (f : A -> B) F1 : stops p F1 ->
  stops (rbind p (fun a => RRet (f a))) F1.
Proof.
  intros H bs r left Hb. rewrite rmem_bind_stop, (H bs r left Hb). split; [|auto].
  intros [X|(a & mid & _ & X)]; [auto|discriminate].
Qed.

Lemma reader_stops : (forall t, rp_ty t) /\ (forall fs, rp_fields fs) /\ (forall al, rp_alts al).
Proof.
  destruct valid_has as (Hvt & _ & _). destruct reader_correct as (Hrt & Hrf & _).
  apply schema_mutind.
  - intros t n c G seen e E Hw Ht Ha Hc Hg. cbn [wf_ty read_ty rstop_ty] in *.
    apply andb_true_iff in Hw. destruct Hw as [H1 H2]. apply stops_fixed. destruct t; lia.
  - intros elt l b c G seen e E Hw Ht Ha Hc Hg. cbn [wf_ty typed_ty read_ty rstop_ty] in *.
    apply andb_true_iff in Hw. destruct Hw as [H1 H2].
    rewrite (deduce_len_agree c _ _ _ _ Ha H2).
    destruct (len_value_is c E l (len_value_typed _ _ _ _ Hg Hc H2 Ht)) as [n Hn].
    rewrite (deduce_len_complete _ _ _ _ Hn).
    eapply stops_ext; [apply stops_var; auto|]. intros bs r left. cbv beta. split.
    + intros X. exists n. auto.
    + intros (m & Hm & X). apply deduce_len_complete in Hn. apply deduce_len_complete in Hm.
      assert (m = n) by (assert (Some (Z.of_nat m) = Some (Z.of_nat n)) as Q by congruence;
                         inversion Q; lia). subst. auto.
  - intros fs IH c G seen e E Hw Ht Ha Hc Hg. cbn [wf_ty typed_ty read_ty rstop_ty] in *.
    apply rp_record; auto.
  - intros n fs IH c G seen e E Hw Ht Ha Hc Hg. cbn [wf_ty typed_ty read_ty rstop_ty] in *.
    apply stops_fun.
    eapply stops_ext; [eapply stops_rrep; [apply (pt_struct fs (Hrf fs) c Hw)|apply rp_record; auto]|].
    intros bs r left. reflexivity.
  - intros fs IH recsz l b c G seen e E Hw Ht Ha Hc Hg. cbn [wf_ty typed_ty read_ty rstop_ty] in *.
    apply andb_true_iff in Hw. destruct Hw as [Hw H2]. apply andb_true_iff in Hw. destruct Hw as [Hw H3].
    apply andb_true_iff in Ht. destruct Ht as [T1 T2]. apply Z.ltb_lt in H3.
    rewrite (deduce_len_agree c _ _ _ _ Ha H2).
    destruct (len_value_is c E l (len_value_typed _ _ _ _ Hg Hc H2 T2)) as [n Hn].
    rewrite (deduce_len_complete _ _ _ _ Hn).
    pose proof (len_allowed_iff c b recsz n H3) as Hi.
    assert (Hu : forall m, len_is c E l m -> m = n).
    { intros m Hm. apply deduce_len_complete in Hn. apply deduce_len_complete in Hm.
      assert (Some (Z.of_nat m) = Some (Z.of_nat n)) as Q by congruence. inversion Q; lia. }
    destruct (len_allowed _ _ _).
    + intros bs r left Hb. cbn [rmem]. rewrite Nat2Z.id.
      pose proof (stops_rrep _ _ _ _ (pt_struct fs (Hrf fs) c Hw) (rp_record fs IH c Hw T1) n) as Hf.
      rewrite (stops_fun _ VSeq _ Hf bs r left Hb). split.
      * intros X. exists n. split; auto. right. split; [apply Hi; auto|exact X].
      * intros (m & Hm & [[X _]|[_ X]]); apply Hu in Hm; subst m; [|exact X].
        exfalso. apply X, Hi. auto.
    + intros bs r left Hb. simpl. split.
      * intros X; inversion X. exists n. split; auto. left. split; auto. intros Y. apply Hi in Y. discriminate.
      * intros (m & Hm & [(_ & -> & ->)|[X _]]); auto. apply Hu in Hm; subst m. apply Hi in X. discriminate.
  - intros b IH p ids c G seen e E Hw Ht Ha Hc Hg. cbn [wf_ty typed_ty read_ty rstop_ty] in *.
    apply andb_true_iff in Hw. destruct Hw as [H1 H2]. apply andb_true_iff in Ht. destruct Ht as [T1 T2].
    rewrite (agree_lookups _ _ _ _ Ha H1).
    destruct (covers_lookups seen E ids Hc H1) as [args El]. rewrite El. destruct (p args) eqn:Ep.
    + eapply stops_ext; [apply stops_fun; eapply IH; eauto|]. intros bs r left. split.
      * intros X. exists args. auto.
      * intros (a & _ & _ & X). auto.
    + eapply stops_ext; [apply stops_ret|]. intros bs r left. split; [tauto|].
      intros (a & X & Y & _). congruence.
  - intros g al IH c G seen e E Hw Ht Ha Hc Hg. cbn [wf_ty typed_ty read_ty rstop_ty] in *.
    apply andb_true_iff in Hw. destruct Hw as [H1 H2]. apply andb_true_iff in Ht. destruct Ht as [T1 T2].
    rewrite (deduce_type_agree _ _ _ _ Ha H1).
    destruct (deduce_type_total _ _ _ _ _ Hg Hc H1 T1) as (r0 & Ed & Hlt). rewrite Ed.
    destruct r0 as [i|].
    + eapply stops_ext; [apply stops_fun; eapply IH; eauto|]. intros bs r left.
      pose proof (proj1 (deduce_type_iff E g i) Ed) as Hs. split.
      * intros X. right. eauto.
      * intros [[X _]|(j & X & Y)]; [exfalso; eapply X; eauto|].
        apply deduce_type_iff in X. assert (j = i) by congruence. subst. auto.
    + intros bs r left _. simpl. split.
      * intros X; inversion X. left. split; auto. intros i Hi. apply deduce_type_iff in Hi. congruence.
      * intros [(_ & -> & ->)|(i & X & _)]; auto. apply deduce_type_iff in X. congruence.
  - intros c G seen e E Hw Ht Ha Hc Hg Hab Hd. cbn [read_fields rleaves]. apply stops_ret.
  - intros id t IHt k fs IHfs c G seen e E Hw Ht Ha Hc Hg Hab Hd.
    cbn [wf_fields typed_fields read_fields rleaves] in *.
    apply andb_true_iff in Hw. destruct Hw as [Hw H3]. apply andb_true_iff in Hw. destruct Hw as [H1 H2].
    apply andb_true_iff in Ht. destruct Ht as [Ht T3]. apply andb_true_iff in Ht. destruct Ht as [T1 T2].
    apply negb_true_iff in H1.
    assert (Hd1 : exists w, lookup e id = Some w) by (apply Hd; left; auto).
    assert (Hd2 : dom fs e) by (intros id' Hin; apply Hd; right; auto).
    pose proof (Hab id H1) as HE.
    eapply stops_ext.
    + eapply stops_bind with
        (F2 := fun v bs r left => rleaves c (E ++ [(id, v)]) fs bs (snd r) (fst r) left).
      * exact (parses_maperr (fun r => (r, id)) _ _ _ (parses_checked k (Hrt t c seen e E H2 Ha))).
      * apply stops_maperr. eapply stops_checked; [apply (Hrt t c seen e E); auto| |exact T2|apply Hvt].
        eapply IHt; eauto.
      * intros v [Hv _]. apply stops_fun. eapply (IHfs c ((id, t) :: G) (id :: seen)); auto.
        -- intros i Hi. destruct (String.eqb_spec id i) as [->|Hn].
           ++ rewrite lookup_update_same by auto. rewrite lookup_app, HE, String.eqb_refl. auto.
           ++ rewrite lookup_update_other by auto. simpl in Hi. apply orb_true_iff in Hi. destruct Hi as [Hi|Hi];
                [apply String.eqb_eq in Hi; congruence|].
              rewrite Ha by auto. rewrite lookup_app. destruct (lookup E i); auto.
              rewrite (proj2 (String.eqb_neq id i) Hn). auto.
        -- intros i [->|Hi]; rewrite lookup_app.
           ++ rewrite HE, String.eqb_refl. eauto.
           ++ destruct (Hc i Hi) as [w ->]. eauto.
        -- intros i t' Hl. simpl in Hl. rewrite lookup_app. destruct (String.eqb_spec id i) as [->|Hn].
           ++ inversion Hl; subst. rewrite HE. exists v. split; auto. eapply Hvt; eauto.
           ++ destruct (Hg i t' Hl) as (w & -> & Hw). eauto.
        -- intros i Hi. simpl in Hi. apply orb_false_iff in Hi. destruct Hi as [Hi1 Hi2].
           rewrite lookup_app, (Hab i Hi2). destruct (String.eqb_spec id i); auto. subst.
           rewrite String.eqb_refl in Hi1. discriminate.
        -- apply dom_update; auto.
    + intros bs [r i] left. cbn [fst snd]. unfold rstop_field. split.
      * intros [(e' & X & Y)|(v & rest & [X1 X2] & X3 & X4)].
        -- inversion X; subst. left. auto.
        -- right. exists v, rest. auto.
      * intros [[-> X]|(v & rest & X1 & X2 & X3 & X4)].
        -- left. exists r. auto.
        -- right. exists v, rest. auto.
  - intros c G seen e E i Hw Ht Ha Hc Hg Hi. simpl in Hi. lia.
  - intros t IHt k al IHal c G seen e E i Hw Ht Ha Hc Hg Hi.
    cbn [wf_alts typed_alts] in *.
    apply andb_true_iff in Hw. destruct Hw as [H1 H2]. apply andb_true_iff in Ht. destruct Ht as [Ht T3].
    apply andb_true_iff in Ht. destruct Ht as [Ht T2]. apply andb_true_iff in Ht. destruct Ht as [T0 T1].
    destruct i as [|i]; cbn [read_alts rstop_alts].
    + eapply stops_checked; [apply (Hrt t c seen e E); auto| |exact T2|apply Hvt].
      eapply IHt; eauto.
    + eapply IHal; eauto. simpl in Hi. lia.
Qed.

(** ** The cast *)

Lemma rleaves_at c gs : forall pre0 (vs0 : list val) bs id r left, wf (f_app pre0 gs) = true ->
  length vs0 = f_len pre0 ->
  (rleaves c (mk_env pre0 vs0) gs bs id r left <->
   exists pre t k post (vs : list val) rest, gs = f_app pre (FCons id t k post) /\
     length vs = f_len pre /\
     valid_fields c (mk_env (f_app pre0 pre) (vs0 ++ vs)) pre vs /\
     bs = enc_fields (c_wire c) pre vs ++ rest /\
     rstop_field c (mk_env (f_app pre0 pre) (vs0 ++ vs)) t k rest r left).
Proof.
  induction gs as [|i t k gs IH]; intros pre0 vs0 bs id r left Hw Hl; cbn [rleaves].
  - split; [tauto|]. intros (pre & t & k & post & vs & rest & E & _). destruct pre; discriminate.
  - assert (Hw' : wf (f_app (f_app pre0 (FCons i t k FNil)) gs) = true)
      by (rewrite f_app_assoc; exact Hw).
    assert (Hl' : forall v, length (vs0 ++ [v]) = f_len (f_app pre0 (FCons i t k FNil))).
    { intros v. rewrite app_length, Hl. clear. induction pre0; simpl; auto. }
    assert (Hag : forall v gs' vs', valid_ty c (mk_env pre0 vs0) t v <->
                  valid_ty c (mk_env (f_app pre0 gs') (vs0 ++ vs')) t v).
    { intros v gs' vs'. unfold wf in Hw. apply wf_fields_app in Hw. destruct Hw as [_ Hw].
      cbn [wf_fields] in Hw. apply andb_true_iff in Hw. destruct Hw as [Hw _].
      apply andb_true_iff in Hw. destruct Hw as [_ Hw].
      eapply valid_ty_agree; [exact Hw|]. intros j Hj. apply memb_In in Hj.
      rewrite app_nil_r in Hj. apply in_rev in Hj. symmetry. apply lookup_mk_env_app; auto. }
    split.
    + intros [[-> H]|(v & rest & H1 & H2 & H3 & H4)].
      * exists FNil, t, k, gs, [], bs. rewrite f_app_nil, app_nil_r. simpl. auto.
      * rewrite <- (mk_env_snoc pre0 vs0 i t k v Hl) in H4. apply IH in H4; auto.
        destruct H4 as (pre & t' & k' & post & vs & rest' & -> & L & V & -> & F).
        rewrite f_app_assoc, <- app_assoc in V, F. simpl in V, F.
        exists (FCons i t k pre), t', k', post, (v :: vs), rest'. simpl. split; auto. split; auto.
        split; [|split; [rewrite <- app_assoc; auto|exact F]].
        split; [apply (Hag v (FCons i t k pre) (v :: vs)); auto|]. auto.
    + intros (pre & t' & k' & post & vs & rest & E1 & L & V & E2 & F).
      destruct pre as [|i' t'' k'' pre].
      * destruct vs; [|discriminate L]. simpl in E1, E2. inversion E1; subst.
        rewrite f_app_nil, app_nil_r in F. auto.
      * destruct vs as [|v vs]; [discriminate L|]. simpl in E1, L. inversion E1; subst i' t'' k'' gs.
        cbn [valid_fields] in V. destruct V as (V1 & V2 & V3). right.
        exists v, (enc_fields (c_wire c) pre vs ++ rest).
        split; [apply (Hag v (FCons i t k pre) (v :: vs)); auto|].
        split; [rewrite E2; simpl; rewrite <- app_assoc; auto|]. split; auto.
        rewrite <- (mk_env_snoc pre0 vs0 i t k v Hl). apply IH; auto.
        exists pre, t', k', post, vs, rest. rewrite f_app_assoc, <- app_assoc. simpl. auto 8.
Qed.

Lemma read_stop_iff c fs bs r id left : wf fs = true -> typed fs = true -> Forall byte_ok bs ->
  (rmem (struct_cast c fs) bs = (Err (r, id), left) <->
   exists pre t k post vs rest, fs = f_app pre (FCons id t k post) /\
     valid c pre vs /\ bs = enc_fields (c_wire c) pre vs ++ rest /\
     rstop_field c (mk_env pre vs) t k rest r left).
Proof.
  intros Hw Ht Hb. destruct reader_stops as (_ & Hf & _).
  assert (X : stops (struct_cast c fs) (fun bs e left => rleaves c [] fs bs (snd e) (fst e) left)).
  { apply (Hf fs c [] []); auto.
    - intros i; discriminate.
    - intros i [].
    - intros i t; discriminate.
    - intros i _. auto.
    - apply dom_mk_env, default_fields_length. }
  rewrite (X bs (r, id) left Hb). cbn [fst snd].
  rewrite (rleaves_at c fs FNil [] bs id r left Hw eq_refl). simpl. unfold valid. split.
  - intros (pre & t & k & post & vs & rest & X1 & X2 & X3 & X4 & X5).
    exists pre, t, k, post, vs, rest. auto.
  - intros (pre & t & k & post & vs & rest & X1 & X2 & X3 & X4).
    exists pre, t, k, post, vs, rest. split; auto. split; auto.
    eapply valid_fields_length; eauto.
Qed.

(** ** Streams *)

Lemma rrun_conforms_err {E A} (PE PF : E -> Prop) PR PA (S : istream) good view lim alloc
  (p : rprog E A) :
  conforms S good view lim ->
  rall (fun _ => True) (fun _ => True) (fun n => 0 <= n <= lim) (fun _ => True) p ->
  rall PE PF PR PA p ->
  forall s e s' ev, good s -> rrun S alloc p s = (Err e, s', ev) -> ~ PF e ->
  good s' /\ rmem p (view s) = (Err e, view s').
Proof.
  intros Hc. induction p; simpl; intros Hall Hall' s e0 s' ev Hg Hr Hn;
    try discriminate; try (inversion Hr; subst; auto; fail).
  - destruct Hall as (HR & HF & Hall). destruct Hall' as (_ & HF' & Hall').
    specialize (Hc s n Hg HR). destruct (Z.leb_spec n (Z.of_nat (length (view s)))).
    + destruct Hc as (s1 & Hi & Hg1 & Hv). rewrite Hi in Hr.
      destruct (rrun S alloc (k _) s1) as [[o1 s2] ev1] eqn:Er.
      inversion Hr; subst. rewrite <- Hv. eauto.
    + destruct Hc as (s1 & Hi). rewrite Hi in Hr. inversion Hr; subst. tauto.
  - destruct Hall as [HA Hall]. destruct Hall' as [_ Hall']. destruct (alloc n).
    + destruct (rrun S alloc p s) as [[o1 s2] ev1] eqn:Er.
      inversion Hr; subst. eauto.
    + discriminate.
Qed.

Lemma read_stop_stream c S good view lim alloc fs s r id s' ev :
  wf fs = true -> typed fs = true -> conforms S good view lim -> widest_fields c fs <= lim ->
  good s -> Forall byte_ok (view s) ->
  rrun S alloc (struct_cast c fs) s = (Err (r, id), s', ev) -> r <> BufferExhaustion ->
  good s' /\
  exists pre t k post vs rest, fs = f_app pre (FCons id t k post) /\
     valid c pre vs /\ view s = enc_fields (c_wire c) pre vs ++ rest /\
     rstop_field c (mk_env pre vs) t k rest r (view s').
Proof.
  intros Hw Ht Hc Hl Hg Hb Hr Hn. destruct (reader_requests c lim) as (_ & Hf & _).
  destruct (rrun_conforms_err _ _ _ _ S good view lim alloc (struct_cast c fs) Hc
              ltac:(eapply Hf; eauto) (struct_cast_all c fs Hw) s (r, id) s' ev Hg Hr)
    as [G M].
  - simpl. tauto.
  - split; auto. apply read_stop_iff; auto.
Qed.
