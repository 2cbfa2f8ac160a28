(** * The inputs on which a read is undefined *)
From Coq Require Import ZifyBool ZifyNat Lia.
From Verif Require Import PropDefs RUndef SeqFacts ReadFacts ReadMore ReadLemmas Safety ReadFinal Rewrite WriteErr ExactFacts ProgFacts BytesFacts.
From Verif Require Import RExactFacts.
Import ListNotations.
Local Open Scope Z_scope.

(** A program is undefined exactly on these inputs. *)
Definition undefs {E A} (p : rprog E A) (U : list Z -> Prop) : Prop :=
  forall bs, Forall byte_ok bs -> (fst (rmem p bs) = UB <-> U bs).

Lemma rmem_bind_ub {E A B} (p : rprog E A) (f : A -> rprog E B) bs :
  fst (rmem (rbind p f) bs) = UB <->
  fst (rmem p bs) = UB \/ exists a mid, rmem p bs = (Ok a, mid) /\ fst (rmem (f a) mid) = UB.
Proof.
  rewrite rmem_bind. destruct (rmem p bs) as [[a|e'| | |] r]; simpl; split; intros H;
    try discriminate; auto;
    try (destruct H as [H|(a' & mid & H & H')]; [discriminate H|]; inversion H; subst; auto; fail).
  right. exists a, r. auto.
Qed.

Lemma undefs_bind {E A B} (p : rprog E A) (f : A -> rprog E B) P enc F1 F2 :
  parses p P enc -> undefs p F1 -> (forall a, P a -> undefs (f a) (F2 a)) ->
  undefs (rbind p f) (fun bs => F1 bs \/ exists a rest, P a /\ bs = enc a ++ rest /\ F2 a rest).
Proof.
  intros Hp H1 H2 bs Hb. rewrite rmem_bind_ub, (H1 bs Hb). split.
  - intros [H|(a & mid & G1 & G2)]; [auto|]. pose proof (rmem_bytes _ _ _ _ Hb G1) as Hm.
    apply Hp in G1; auto. destruct G1 as [G1 ->]. right. exists a, mid. split; auto. split; auto.
    apply H2; auto.
  - intros [H|(a & rest & G1 & -> & G2)]; [auto|]. right. exists a, rest. split; [apply Hp; auto|].
    apply H2; auto. apply Forall_app in Hb. tauto.
Qed.

Lemma undefs_ret {E A} (a : A) : undefs (RRet a : rprog E A) (fun _ => False).
Proof. intros bs Hb. simpl. split; [discriminate|tauto]. Qed.

Lemma undefs_ext {E A} (p : rprog E A) F1 F2 : undefs p F1 ->
  (forall bs, F1 bs <-> F2 bs) -> undefs p F2.
Proof. intros H H' bs Hb. rewrite <- H'. auto. Qed.

Lemma undefs_maperr {E E' A} (g : E -> E') (p : rprog E A) F1 : undefs p F1 -> undefs (rmaperr g p) F1.
Proof.
  intros H bs Hb. rewrite rmem_maperr, <- (H bs Hb).
  destruct (rmem p bs) as [[a|e| | |] rest]; simpl; split; intros X; try discriminate; auto.
Qed.

Lemma undefs_rrep {E A} (p : rprog E A) P enc F1 : parses p P enc -> undefs p F1 -> forall n,
  undefs (rrep n p) (fun bs => exists xs rest, (length xs < n)%nat /\ Forall P xs /\
                                 bs = flat_map enc xs ++ rest /\ F1 rest).
Proof.
  intros Hp H1. induction n as [|n IH]; cbn [rrep].
  - eapply undefs_ext; [apply undefs_ret|]. intros bs. split; [tauto|].
    intros (xs & rest & H & _). lia.
  - eapply undefs_ext.
    + eapply undefs_bind; [exact Hp|exact H1|]. intros a Ha.
      eapply undefs_bind; [apply parses_rrep; exact Hp|exact IH|]. intros l Hl. apply undefs_ret.
    + intros bs. cbv beta. split.
      * intros [H|(a & rest & Ha & -> & [(xs & rest' & X1 & X2 & -> & X3)|(l & rest' & _ & _ & [])])].
        -- exists [], bs. simpl. repeat split; auto; lia.
        -- exists (a :: xs), rest'. simpl. rewrite <- app_assoc. repeat split; auto; lia.
      * intros (xs & rest & X1 & X2 & -> & X3). destruct xs as [|a xs].
        -- left. auto.
        -- right. inversion X2; subst. exists a, (flat_map enc xs ++ rest). simpl.
           rewrite <- app_assoc. split; auto. split; auto. left. exists xs, rest. simpl in X1.
           repeat split; auto; lia.
Qed.

(** ** Constraints *)

Lemma cstr_none a : cstr a = None <-> ~ In 0 a.
Proof.
  induction a as [|b a IH]; simpl; [tauto|]. destruct (Z.eqb_spec b 0) as [->|N].
  - split; [discriminate|]. intros H. exfalso. apply H. auto.
  - destruct (cstr a); split; intros H; try discriminate; auto.
    + exfalso. apply H. right. assert (Some l <> None) as X by discriminate.
      destruct (in_dec Z.eq_dec 0 a) as [I|I]; auto. apply IH in I. discriminate.
    + intros [X|X]; [auto|]. apply (proj1 IH); auto.
Qed.

Lemma str_ok_some n lit : str_ok n lit = true -> exists y, cstr lit = Some y.
Proof.
  intros H. destruct (cstr lit) as [y|] eqn:E; eauto. apply cstr_none in E.
  destruct (str_ok_cstr n lit H) as (s & _ & rest & ->). exfalso. apply E, in_or_app. simpl. auto.
Qed.

Lemma check_senseless t k v : constr_ok t k = true -> has_ty t v ->
  (check k v = CUndef <-> senseless k v).
Proof.
  intros Hk Hv. destruct (check_typed t k v Hk Hv) as [H1 H2].
  destruct k as [|o s lit|s lits|neg lit|neg lit|lits|o w lit|w lits|f].
  - cbn. split; [discriminate|tauto].
  - cbn [check senseless] in *. split.
    + intros X z Hz. apply as_int_iff in Hz. rewrite Hz in X. destruct (do_cmp o z lit); discriminate.
    + intros X. destruct (as_int s v) as [[z|]|] eqn:E; [|auto|congruence].
      apply as_int_iff in E. exfalso. eapply X; eauto.
  - cbn [check senseless] in *. split.
    + intros X z Hz. apply as_int_iff in Hz. rewrite Hz in X. destruct (existsb _ _); discriminate.
    + intros X. destruct (as_int s v) as [[z|]|] eqn:E; [|auto|congruence].
      apply as_int_iff in E. exfalso. eapply X; eauto.
  - specialize (H2 eq_refl). split; [congruence|intros []].
  - destruct t as [[s0| |n0|]| | | | | | ]; try discriminate. cbn [constr_ok] in Hk. simpl in Hv.
    destruct v as [|l| | | | |]; try tauto. destruct Hv as [_ Hv]. apply chars_of_ok in Hv. destruct Hv as [zs Hz].
    pose proof (proj1 (chars_of_iff _ _) Hz) as Hz'. subst l. destruct (str_ok_some _ _ Hk) as [y Hy].
    cbn [check senseless]. rewrite Hz. unfold fixed_string_eq. rewrite Hy. split.
    + intros X. exists zs. split; auto. apply cstr_none. destruct (cstr zs) as [x|]; auto.
      destruct neg, (zlist_eqb x y); discriminate.
    + intros (a & E & X). inversion E as [E']. apply chars_of_iff in E'. rewrite Hz in E'. inversion E'; subst a.
      apply cstr_none in X. rewrite X. destruct neg; reflexivity.
  - destruct t as [[s0| |n0|]| | | | | | ]; try discriminate. cbn [constr_ok] in Hk. simpl in Hv.
    destruct v as [|l| | | | |]; try tauto. destruct Hv as [_ Hv]. apply chars_of_ok in Hv. destruct Hv as [zs Hz].
    pose proof (proj1 (chars_of_iff _ _) Hz) as Hz'. subst l.
    cbn [check senseless]. rewrite Hz. split.
    + intros X. assert (cstr zs = None) as N.
      { destruct (cstr zs) as [x|] eqn:Ex; auto. exfalso. clear H1 H2 Hz. induction lits as [|b lits IH]; [discriminate|].
        cbn [forallb] in Hk. apply andb_true_iff in Hk. destruct Hk as [Hk1 Hk2].
        destruct (str_ok_some _ _ Hk1) as [y Hy]. cbn [str_any] in X. unfold fixed_string_eq in X. rewrite Ex, Hy in X.
        destruct (zlist_eqb x y); [discriminate|]. apply IH; auto. }
      split; [intros ->; discriminate|]. exists zs. split; auto. apply cstr_none. auto.
    + intros (Hne & a & E & X). inversion E as [E']. apply chars_of_iff in E'. rewrite Hz in E'. inversion E'; subst a.
      apply cstr_none in X. destruct lits as [|b lits]; [congruence|]. cbn [str_any]. unfold fixed_string_eq.
      rewrite X. reflexivity.
  - specialize (H2 eq_refl). split; [congruence|intros []].
  - specialize (H2 eq_refl). split; [congruence|intros []].
  - specialize (H2 eq_refl). split; [congruence|intros []].
Qed.

Lemma undefs_check t k v : constr_ok t k = true -> has_ty t v -> undefs (rcheck k v) (fun _ => senseless k v).
Proof.
  intros Hk Hv bs Hb. pose proof (check_senseless t k v Hk Hv) as Hf. unfold rcheck. rewrite <- Hf.
  destruct (check k v); simpl; split; congruence.
Qed.

Lemma undefs_checked (p : rprog reason val) P enc F1 t k : parses p P enc -> undefs p F1 ->
  constr_ok t k = true -> (forall v, P v -> has_ty t v) ->
  undefs (rbind p (rcheck k)) (fun bs => F1 bs \/ exists v rest, P v /\ bs = enc v ++ rest /\ senseless k v).
Proof.
  intros Hp H1 Hk Hv. eapply undefs_bind; eauto. intros a Ha. eapply undefs_check; eauto.
Qed.

Lemma undefs_fun {E A B} (p : rprog E A) (f : A -> B) F1 : undefs p F1 ->
  undefs (rbind p (fun a => RRet (f a))) F1.
Proof.
  intros H bs Hb. rewrite rmem_bind_ub, (H bs Hb). split; [|auto].
  intros [X|(a & mid & _ & X)]; [auto|discriminate].
Qed.

(** ** Leaves *)

Lemma sequence_none {A} (l : list (option A)) : sequence l = None <-> In None l.
Proof.
  induction l as [|[a|] l IH]; simpl; [split; [discriminate|tauto]| |tauto].
  destruct (sequence l); split; intros H; try discriminate; auto.
  - destruct H as [H|H]; [discriminate|]. apply IH in H. discriminate.
  - right. apply IH. auto.
Qed.

Lemma chunks_nth w : forall n l j, (j < n)%nat -> nth_error (chunks w n l) j = Some (firstn w (skipn (j * w) l)).
Proof.
  induction n; intros l j Hj; [lia|]. destruct j as [|j]; cbn [chunks nth_error]; [reflexivity|].
  rewrite IHn by lia. rewrite skipn_plus. do 3 f_equal. lia.
Qed.

Lemma bools_lt t : forall i, In i (bools t) -> (i < csize t)%nat.
Proof.
  induction t as [s|n t IH|n|w]; cbn [bools csize]; intros i Hi; try contradiction.
  - destruct s; [contradiction|]. destruct Hi as [<-|[]]. cbn. lia.
  - apply in_flat_map in Hi. destruct Hi as (j & Hj & Hi). apply in_map_iff in Hi.
    destruct Hi as (i' & <- & Hi). apply IH in Hi. apply in_seq in Hj. nia.
Qed.

Lemma nth_error_firstn' {A} : forall n i (l : list A), (i < n)%nat -> nth_error (firstn n l) i = nth_error l i.
Proof.
  induction n; intros i l H; [lia|]. destruct l as [|a l]; simpl; [destruct i; auto|].
  destruct i; simpl; auto. apply IHn. lia.
Qed.

Lemma nth_error_skipn' {A} : forall n i (l : list A), nth_error (skipn n l) i = nth_error l (n + i).
Proof.
  induction n; intros i l; [reflexivity|]. destruct l as [|a l]; simpl; [destruct i; auto|]. apply IHn.
Qed.

Lemma elements_bad c t n mem :
  (forall m, length m = csize t -> Forall byte_ok m -> (load c t m = None <-> bad_bool t m)) ->
  length mem = (n * csize t)%nat -> Forall byte_ok mem ->
  (sequence (map (load c t) (chunks (csize t) n mem)) = None <-> bad_bool (TArr n t) mem).
Proof.
  intros IH Hl Hb. rewrite sequence_none.
  assert (Hc : forall j, (j < n)%nat -> length (firstn (csize t) (skipn (j * csize t) mem)) = csize t).
  { intros j Hj. rewrite firstn_length, skipn_length. nia. }
  assert (Hf : forall j, Forall byte_ok (firstn (csize t) (skipn (j * csize t) mem)))
    by (intros j; apply Forall_firstn, Forall_skipn; auto).
  split.
  - intros H. apply in_map_iff in H. destruct H as (ch & E & Hin). apply In_nth_error in Hin. destruct Hin as [j Hj].
    assert (j < n)%nat as Hjn by (rewrite <- (chunks_length (csize t) n mem); apply nth_error_Some; congruence).
    rewrite chunks_nth in Hj by auto. inversion Hj; subst ch.
    apply IH in E; auto. destruct E as (i & b & I & En & N). exists (j * csize t + i)%nat, b.
    pose proof (bools_lt t i I) as Hi. split; [|split; auto].
    + cbn [bools]. apply in_flat_map. exists j. split; [apply in_seq; lia|]. apply in_map_iff. eauto.
    + rewrite nth_error_firstn', nth_error_skipn' in En by auto. exact En.
  - intros (i & b & I & En & N). cbn [bools] in I. apply in_flat_map in I. destruct I as (j & Hj & I).
    apply in_map_iff in I. destruct I as (i' & <- & I). apply in_seq in Hj.
    apply in_map_iff. exists (firstn (csize t) (skipn (j * csize t) mem)). split.
    + apply IH; auto; [apply Hc; lia|]. exists i', b. split; auto. split; auto. pose proof (bools_lt t i' I).
      rewrite nth_error_firstn', nth_error_skipn' by auto. exact En.
    + eapply nth_error_In. apply chunks_nth. lia.
Qed.

Lemma load_bad c t : forall mem, length mem = csize t -> Forall byte_ok mem ->
  (load c t mem = None <-> bad_bool t mem).
Proof.
  induction t as [s|n t IH|n|w]; intros mem Hl Hb; cbn [load].
  - destruct s as [w sg|].
    + split; [destruct sg; discriminate|]. intros (i & b & [] & _).
    + cbn [csize ssize] in *. destruct mem as [|b [|]]; try discriminate.
      assert (E : load_bits c 1 [b] = b).
      { unfold load_bits. cbn [Nat.ltb Nat.leb]. destruct (is_host_order c); unfold mem_dec; destruct (c_host c); simpl; lia. }
      rewrite E. cbn [sc_of_bits]. split.
      * intros X. exists 0%nat, b. split; [left; auto|]. split; [reflexivity|].
        destruct (Z.eqb_spec b 0), (Z.eqb_spec b 1); try discriminate; auto.
      * intros (i & b' & [<-|[]] & E1 & N0 & N1). cbn in E1. inversion E1; subst b'.
        destruct (Z.eqb_spec b 0), (Z.eqb_spec b 1); try contradiction. reflexivity.
  - cbn [csize] in *. rewrite <- (elements_bad c t n mem IH Hl Hb).
    destruct (sequence _); split; congruence.
  - split; [discriminate|]. intros (i & b & [] & _).
  - split; [discriminate|]. intros (i & b & [] & _).
Qed.

Lemma bad_overlay t n bs : length bs = n -> (n <= csize t)%nat ->
  (bad_bool t (overlay (csize t) bs) <-> bad_bool t bs).
Proof.
  intros Hl Hn. unfold overlay. split; intros (i & b & I & En & N0 & N1); exists i, b; repeat split; auto.
  - destruct (Nat.lt_ge_cases i (length bs)) as [L|L]; [rewrite nth_error_app1 in En; auto|].
    rewrite nth_error_app2 in En by auto. apply nth_error_In, repeat_spec in En. contradiction.
  - rewrite nth_error_app1; auto. apply nth_error_Some. congruence.
Qed.

Lemma undefs_fixed c t n : (n <= csize t)%nat ->
  undefs (read_fixed c t n) (fun bs => (n <= length bs)%nat /\ bad_bool t (firstn n bs)).
Proof.
  intros Hn bs Hb. unfold read_fixed. destruct (Nat.ltb_spec (csize t) n); [lia|]. cbn [rmem].
  destruct (Z.leb_spec (Z.of_nat n) (Z.of_nat (length bs))) as [L|L].
  - rewrite Nat2Z.id. assert (Hf : length (firstn n bs) = n) by (rewrite firstn_length; lia).
    rewrite <- (bad_overlay t n (firstn n bs)) by auto.
    rewrite <- (load_bad c t).
    + destruct (load c t (overlay (csize t) (firstn n bs))); simpl; split; try discriminate; try tauto.
      * intros [_ X]. discriminate.
      * intros _. split; auto. lia.
    + unfold overlay. rewrite app_length, repeat_length. lia.
    + unfold overlay. apply Forall_app. split; [apply Forall_firstn; auto|].
      apply Forall_forall. intros x Hx. apply repeat_spec in Hx. subst. unfold byte_ok. lia.
  - simpl. split; [discriminate|]. intros [X _]. lia.
Qed.

Lemma undefs_raw c esz len : undefs (read_raw c esz len) (fun _ => False).
Proof.
  unfold read_raw. destruct (c_cx c).
  - apply undefs_fun. intros bs Hb. split; [|tauto]. generalize (Z.to_nat len). intros n. revert bs Hb.
    induction n as [|n IH]; intros bs Hb; cbn [rrep]; [discriminate|].
    rewrite rmem_bind_ub. intros [X|(a & mid & X & Y)].
    + simpl in X. destruct (_ <=? _); discriminate.
    + apply rmem_bind_ub in Y. destruct Y as [Y|(l & mid' & _ & Y)]; [|discriminate].
      eapply IH; [|exact Y]. eapply rmem_bytes; eauto.
  - intros bs Hb. simpl. destruct (_ <=? _); simpl; split; try discriminate; tauto.
Qed.

Lemma undefs_var c elt n b : ct_wf elt = true ->
  undefs (read_var c elt (Z.of_nat n) b) (fun bs =>
    within c b (Z.of_nat (csize elt)) n /\ (n * csize elt <= length bs)%nat /\
    bad_bool (TArr n elt) (firstn (n * csize elt) bs)).
Proof.
  intros Hw. pose proof (csize_pos _ Hw) as Hp. unfold read_var.
  pose proof (len_allowed_iff c b (Z.of_nat (csize elt)) n ltac:(lia)) as Hi.
  destruct (len_allowed _ _ _) eqn:Ea.
  - pose proof (len_allowed_fits c b (Z.of_nat (csize elt)) (Z.of_nat n) ltac:(lia) ltac:(lia) Ea) as Hf.
    intros bs Hb. cbn [rmem]. rewrite Nat2Z.id.
    pose proof (parses_raw c (Z.of_nat (csize elt)) (Z.of_nat n) ltac:(lia) ltac:(lia) Hf) as Hr.
    assert (Hx : forall mem, length mem = (n * csize elt)%nat -> Forall byte_ok mem ->
      (sequence (map (load c elt) (chunks (csize elt) n mem)) = None <-> bad_bool (TArr n elt) mem))
      by (intros mem; apply elements_bad, load_bad).
    rewrite rmem_bind_ub. split.
    + intros [X|(mem & mid & X & Y)]; [apply undefs_raw in X; tauto|].
      apply Hr in X; auto. destruct X as [Hl ->].
      assert (Hm : length mem = (n * csize elt)%nat) by nia.
      apply Forall_app in Hb. destruct Hb as [Hb _]. split; [apply Hi; auto|].
      rewrite app_length, Hm. split; [lia|].
      rewrite firstn_app, <- Hm, Nat.sub_diag, firstn_all, app_nil_r. apply Hx; auto.
      destruct (sequence _); [discriminate|auto].
    + intros (_ & Hl & X). right. exists (firstn (n * csize elt) bs), (skipn (n * csize elt) bs).
      assert (Hm : length (firstn (n * csize elt) bs) = (n * csize elt)%nat) by (rewrite firstn_length; lia).
      split.
      * apply Hr; auto. split; [nia|]. symmetry. apply firstn_skipn.
      * apply Hx in X; auto; [|apply Forall_firstn; auto]. rewrite X. reflexivity.
  - intros bs _. simpl. split; [discriminate|]. intros [X _]. apply Hi in X. discriminate.
Qed.

(** ** The reader *)

Definition ru_ty (t : fty) : Prop := forall c G seen e E,
  wf_ty seen t = true -> typed_ty G t = true -> agree seen e E -> covers seen E -> env_has G E ->
  undefs (read_ty c e t) (rundef_ty c E t).
Definition ru_alts (al : alts) : Prop := forall c G seen e E i,
  wf_alts seen al = true -> typed_alts G al = true -> agree seen e E -> covers seen E -> env_has G E ->
  (i < a_len al)%nat -> undefs (read_alts c e al i) (rundef_alts c E al i).
Definition ru_fields (fs : fields) : Prop := forall c G seen e E,
  wf_fields seen fs = true -> typed_fields G fs = true -> agree seen e E -> covers seen E ->
  env_has G E -> absent seen E -> dom fs e ->
  undefs (read_fields c e fs) (rundef_fields c E fs).

Lemma ru_cast fs : ru_fields fs -> forall c, wf fs = true -> typed fs = true ->
  undefs (read_fields c (mk_env fs (default_fields fs)) fs) (rundef_fields c [] fs).
Proof.
  intros H c Hw Ht. apply (H c [] []); auto.
  - intros id; discriminate.
  - intros id [].
  - intros id t; discriminate.
  - intros id _. auto.
  - apply dom_mk_env, default_fields_length.
Qed.

Lemma ru_record fs : ru_fields fs -> forall c, wf fs = true -> typed fs = true ->
  undefs (rbind (rmaperr fst (read_fields c (mk_env fs (default_fields fs)) fs))
               (fun vs => RRet (VRec vs)))
        (rundef_fields c [] fs).
Proof. intros H c Hw Ht. apply undefs_fun, undefs_maperr, ru_cast; auto. Qed.

Lemma reader_undefs : (forall t, ru_ty t) /\ (forall fs, ru_fields fs) /\ (forall al, ru_alts al).
Proof.
  destruct valid_has as (Hvt & _ & _). destruct reader_correct as (Hrt & Hrf & _).
  apply schema_mutind.
  - intros t n c G seen e E Hw Ht Ha Hc Hg. cbn [wf_ty read_ty rundef_ty] in *.
    apply andb_true_iff in Hw. destruct Hw as [H1 H2]. apply undefs_fixed. destruct t; lia.
  - intros elt l b c G seen e E Hw Ht Ha Hc Hg. cbn [wf_ty typed_ty read_ty rundef_ty] in *.
    apply andb_true_iff in Hw. destruct Hw as [H1 H2].
    rewrite (deduce_len_agree c _ _ _ _ Ha H2).
    destruct (len_value_is c E l (len_value_typed _ _ _ _ Hg Hc H2 Ht)) as [n Hn].
    rewrite (deduce_len_complete _ _ _ _ Hn).
    eapply undefs_ext; [apply undefs_var; auto|]. intros bs. cbv beta. split.
    + intros X. exists n. auto.
    + intros (m & Hm & X). apply deduce_len_complete in Hn. apply deduce_len_complete in Hm.
      assert (m = n) by (assert (Some (Z.of_nat m) = Some (Z.of_nat n)) as Q by congruence;
                         inversion Q; lia). subst. auto.
  - intros fs IH c G seen e E Hw Ht Ha Hc Hg. cbn [wf_ty typed_ty read_ty rundef_ty] in *.
    apply ru_record; auto.
  - intros n fs IH c G seen e E Hw Ht Ha Hc Hg. cbn [wf_ty typed_ty read_ty rundef_ty] in *.
    apply undefs_fun.
    eapply undefs_ext; [eapply undefs_rrep; [apply (pt_struct fs (Hrf fs) c Hw)|apply ru_record; auto]|].
    intros bs. reflexivity.
  - intros fs IH recsz l b c G seen e E Hw Ht Ha Hc Hg. cbn [wf_ty typed_ty read_ty rundef_ty] in *.
    apply andb_true_iff in Hw. destruct Hw as [Hw H2]. apply andb_true_iff in Hw. destruct Hw as [Hw H3].
    apply andb_true_iff in Ht. destruct Ht as [T1 T2]. apply Z.ltb_lt in H3.
    rewrite (deduce_len_agree c _ _ _ _ Ha H2).
    destruct (len_value_is c E l (len_value_typed _ _ _ _ Hg Hc H2 T2)) as [n Hn].
    rewrite (deduce_len_complete _ _ _ _ Hn).
    pose proof (len_allowed_iff c b recsz n H3) as Hi.
    assert (Hu : forall m, len_is c E l m -> m = n).
    { intros m Hm. apply deduce_len_complete in Hn. apply deduce_len_complete in Hm.
      assert (Some (Z.of_nat m) = Some (Z.of_nat n)) as Q by congruence. inversion Q; lia. }
    destruct (len_allowed _ _ _).
    + intros bs Hb. cbn [rmem]. rewrite Nat2Z.id.
      pose proof (undefs_rrep _ _ _ _ (pt_struct fs (Hrf fs) c Hw) (ru_record fs IH c Hw T1) n) as Hf.
      rewrite (undefs_fun _ VSeq _ Hf bs Hb). split.
      * intros X. exists n. split; auto. split; [apply Hi; auto|exact X].
      * intros (m & Hm & _ & X). apply Hu in Hm; subst m. exact X.
    + intros bs Hb. simpl. split; [discriminate|].
      intros (m & Hm & X & _). apply Hu in Hm; subst m. apply Hi in X. discriminate.
  - intros b IH p ids c G seen e E Hw Ht Ha Hc Hg. cbn [wf_ty typed_ty read_ty rundef_ty] in *.
    apply andb_true_iff in Hw. destruct Hw as [H1 H2]. apply andb_true_iff in Ht. destruct Ht as [T1 T2].
    rewrite (agree_lookups _ _ _ _ Ha H1).
    destruct (covers_lookups seen E ids Hc H1) as [args El]. rewrite El. destruct (p args) eqn:Ep.
    + eapply undefs_ext; [apply undefs_fun; eapply IH; eauto|]. intros bs. split.
      * intros X. exists args. auto.
      * intros (a & _ & _ & X). auto.
    + eapply undefs_ext; [apply undefs_ret|]. intros bs. split; [tauto|].
      intros (a & X & Y & _). congruence.
  - intros g al IH c G seen e E Hw Ht Ha Hc Hg. cbn [wf_ty typed_ty read_ty rundef_ty] in *.
    apply andb_true_iff in Hw. destruct Hw as [H1 H2]. apply andb_true_iff in Ht. destruct Ht as [T1 T2].
    rewrite (deduce_type_agree _ _ _ _ Ha H1).
    destruct (deduce_type_total _ _ _ _ _ Hg Hc H1 T1) as (r0 & Ed & Hlt). rewrite Ed.
    destruct r0 as [i|].
    + eapply undefs_ext; [apply undefs_fun; eapply IH; eauto|]. intros bs.
      pose proof (proj1 (deduce_type_iff E g i) Ed) as Hs. split; [eauto|].
      intros (j & X & Y). apply deduce_type_iff in X. assert (j = i) by congruence. subst. auto.
    + intros bs _. simpl. split; [discriminate|].
      intros (i & X & _). apply deduce_type_iff in X. congruence.
  - intros c G seen e E Hw Ht Ha Hc Hg Hab Hd. cbn [read_fields rundef_fields]. apply undefs_ret.
  - intros id t IHt k fs IHfs c G seen e E Hw Ht Ha Hc Hg Hab Hd.
    cbn [wf_fields typed_fields read_fields rundef_fields] in *.
    apply andb_true_iff in Hw. destruct Hw as [Hw H3]. apply andb_true_iff in Hw. destruct Hw as [H1 H2].
    apply andb_true_iff in Ht. destruct Ht as [Ht T3]. apply andb_true_iff in Ht. destruct Ht as [T1 T2].
    apply negb_true_iff in H1.
    assert (Hd1 : exists w, lookup e id = Some w) by (apply Hd; left; auto).
    assert (Hd2 : dom fs e) by (intros id' Hin; apply Hd; right; auto).
    pose proof (Hab id H1) as HE.
    eapply undefs_ext.
    + eapply undefs_bind with (F2 := fun v bs => rundef_fields c (E ++ [(id, v)]) fs bs).
      * exact (parses_maperr (fun r => (r, id)) _ _ _ (parses_checked k (Hrt t c seen e E H2 Ha))).
      * apply undefs_maperr. eapply undefs_checked; [apply (Hrt t c seen e E); auto| |exact T2|apply Hvt].
        eapply IHt; eauto.
      * intros v [Hv _]. apply undefs_fun. eapply (IHfs c ((id, t) :: G) (id :: seen)); auto.
        -- intros i Hi. destruct (String.eqb_spec id i) as [->|Hn].
           ++ rewrite lookup_update_same by auto. rewrite lookup_app, HE, String.eqb_refl. auto.
           ++ rewrite lookup_update_other by auto. simpl in Hi. apply orb_true_iff in Hi. destruct Hi as [Hi|Hi];
                [apply String.eqb_eq in Hi; congruence|].
              rewrite Ha by auto. rewrite lookup_app. destruct (lookup E i); auto.
              rewrite (proj2 (String.eqb_neq id i) Hn). auto.
        -- intros i [->|Hi]; rewrite lookup_app.
           ++ rewrite HE, String.eqb_refl. eauto.
           ++ destruct (Hc i Hi) as [w ->]. eauto.
        -- intros i t' Hl. simpl in Hl. rewrite lookup_app. destruct (String.eqb_spec id i) as [->|Hn].
           ++ inversion Hl; subst. rewrite HE. exists v. split; auto. eapply Hvt; eauto.
           ++ destruct (Hg i t' Hl) as (w & -> & Hw). eauto.
        -- intros i Hi. simpl in Hi. apply orb_false_iff in Hi. destruct Hi as [Hi1 Hi2].
           rewrite lookup_app, (Hab i Hi2). destruct (String.eqb_spec id i); auto. subst.
           rewrite String.eqb_refl in Hi1. discriminate.
        -- apply dom_update; auto.
    + intros bs. cbv beta. split.
      * intros [[X|(v & rest & X1 & X2 & X3)]|(v & rest & [X1 X2] & X3 & X4)]; [auto| |].
        -- right. exists v, rest. auto.
        -- right. exists v, rest. auto.
      * intros [X|(v & rest & X1 & X2 & [X3|[X3 X4]])]; [auto| |].
        -- left. right. exists v, rest. auto.
        -- right. exists v, rest. auto.
  - intros c G seen e E i Hw Ht Ha Hc Hg Hi. simpl in Hi. lia.
  - intros t IHt k al IHal c G seen e E i Hw Ht Ha Hc Hg Hi.
    cbn [wf_alts typed_alts] in *.
    apply andb_true_iff in Hw. destruct Hw as [H1 H2]. apply andb_true_iff in Ht. destruct Ht as [Ht T3].
    apply andb_true_iff in Ht. destruct Ht as [Ht T2]. apply andb_true_iff in Ht. destruct Ht as [T0 T1].
    destruct i as [|i]; cbn [read_alts rundef_alts].
    + eapply undefs_checked; [apply (Hrt t c seen e E); auto| |exact T2|apply Hvt].
      eapply IHt; eauto.
    + eapply IHal; eauto. simpl in Hi. lia.
Qed.

(** ** The cast *)

Lemma rundef_at c gs : forall pre0 (vs0 : list val) bs, wf (f_app pre0 gs) = true ->
  length vs0 = f_len pre0 ->
  (rundef_fields c (mk_env pre0 vs0) gs bs <->
   exists pre id t k post (vs : list val) rest, gs = f_app pre (FCons id t k post) /\
     length vs = f_len pre /\
     valid_fields c (mk_env (f_app pre0 pre) (vs0 ++ vs)) pre vs /\
     bs = enc_fields (c_wire c) pre vs ++ rest /\
     rundef_field c (mk_env (f_app pre0 pre) (vs0 ++ vs)) t k rest).
Proof.
  induction gs as [|i t k gs IH]; intros pre0 vs0 bs Hw Hl; cbn [rundef_fields].
  - split; [tauto|]. intros (pre & id & t & k & post & vs & rest & E & _). destruct pre; discriminate.
  - assert (Hw' : wf (f_app (f_app pre0 (FCons i t k FNil)) gs) = true)
      by (rewrite f_app_assoc; exact Hw).
    assert (Hl' : forall v, length (vs0 ++ [v]) = f_len (f_app pre0 (FCons i t k FNil))).
    { intros v. rewrite app_length, Hl. clear. induction pre0; simpl; auto. }
    assert (Hag : forall v gs' vs', valid_ty c (mk_env pre0 vs0) t v <->
                  valid_ty c (mk_env (f_app pre0 gs') (vs0 ++ vs')) t v).
    { intros v gs' vs'. unfold wf in Hw. apply wf_fields_app in Hw. destruct Hw as [_ Hw].
      cbn [wf_fields] in Hw. apply andb_true_iff in Hw. destruct Hw as [Hw _].
      apply andb_true_iff in Hw. destruct Hw as [_ Hw].
      eapply valid_ty_agree; [exact Hw|]. intros j Hj. apply memb_In in Hj.
      rewrite app_nil_r in Hj. apply in_rev in Hj. symmetry. apply lookup_mk_env_app; auto. }
    assert (Hhere : rundef_field c (mk_env pre0 vs0) t k bs ->
      exists pre id t' k' post (vs : list val) rest, FCons i t k gs = f_app pre (FCons id t' k' post) /\
        length vs = f_len pre /\ valid_fields c (mk_env (f_app pre0 pre) (vs0 ++ vs)) pre vs /\
        bs = enc_fields (c_wire c) pre vs ++ rest /\
        rundef_field c (mk_env (f_app pre0 pre) (vs0 ++ vs)) t' k' rest).
    { intros H. exists FNil, i, t, k, gs, [], bs. rewrite f_app_nil, app_nil_r. simpl. auto. }
    split.
    + intros [H|(v & rest & H1 & H2 & [H3|[H3 H4]])].
      * apply Hhere. left. auto.
      * apply Hhere. right. eauto.
      * rewrite <- (mk_env_snoc pre0 vs0 i t k v Hl) in H4. apply IH in H4; auto.
        destruct H4 as (pre & id & t' & k' & post & vs & rest' & -> & L & V & -> & F).
        rewrite f_app_assoc, <- app_assoc in V, F. simpl in V, F.
        exists (FCons i t k pre), id, t', k', post, (v :: vs), rest'. simpl. split; auto. split; auto.
        split; [|split; [rewrite <- app_assoc; auto|exact F]].
        split; [apply (Hag v (FCons i t k pre) (v :: vs)); auto|]. auto.
    + intros (pre & id & t' & k' & post & vs & rest & E1 & L & V & E2 & F).
      destruct pre as [|i' t'' k'' pre].
      * destruct vs; [|discriminate L]. simpl in E1, E2. inversion E1; subst.
        rewrite f_app_nil, app_nil_r in F. destruct F as [F|(v & rest' & F1 & F2 & F3)]; [auto|].
        right. exists v, rest'. auto.
      * destruct vs as [|v vs]; [discriminate L|]. simpl in E1, L. inversion E1; subst i' t'' k'' gs.
        cbn [valid_fields] in V. destruct V as (V1 & V2 & V3). right.
        exists v, (enc_fields (c_wire c) pre vs ++ rest).
        split; [apply (Hag v (FCons i t k pre) (v :: vs)); auto|].
        split; [rewrite E2; simpl; rewrite <- app_assoc; auto|]. right. split; auto.
        rewrite <- (mk_env_snoc pre0 vs0 i t k v Hl). apply IH; auto.
        exists pre, id, t', k', post, vs, rest. rewrite f_app_assoc, <- app_assoc. simpl. auto 9.
Qed.

Lemma read_ub_iff c fs bs : wf fs = true -> typed fs = true -> Forall byte_ok bs ->
  (fst (rmem (struct_cast c fs) bs) = UB <->
   exists pre id t k post vs rest, fs = f_app pre (FCons id t k post) /\
     valid c pre vs /\ bs = enc_fields (c_wire c) pre vs ++ rest /\
     rundef_field c (mk_env pre vs) t k rest).
Proof.
  intros Hw Ht Hb. destruct reader_undefs as (_ & Hf & _).
  rewrite (ru_cast fs (Hf fs) c Hw Ht bs Hb).
  rewrite (rundef_at c fs FNil [] bs Hw eq_refl). simpl. unfold valid. split.
  - intros (pre & id & t & k & post & vs & rest & X1 & X2 & X3 & X4 & X5).
    exists pre, id, t, k, post, vs, rest. auto.
  - intros (pre & id & t & k & post & vs & rest & X1 & X2 & X3 & X4).
    exists pre, id, t, k, post, vs, rest. split; auto. split; auto.
    eapply valid_fields_length; eauto.
Qed.

(** Every input is one of the three. *)
Lemma read_total c fs bs : wf fs = true -> typed fs = true -> Forall byte_ok bs ->
  (exists vs rest, valid c fs vs /\ bs = enc_fields (c_wire c) fs vs ++ rest) \/
  (exists pre id t k post vs rest, fs = f_app pre (FCons id t k post) /\
     valid c pre vs /\ bs = enc_fields (c_wire c) pre vs ++ rest /\
     ((exists r, rfault_field c (mk_env pre vs) t k rest r) \/
      rundef_field c (mk_env pre vs) t k rest)).
Proof.
  intros Hw Ht Hb.
  pose proof (rsafe_mem True _ _ (struct_cast_safe c True fs Hw Ht (or_intror I))) as Hs.
  destruct (Hs ltac:(eapply rall_impl; [| | | |apply (struct_cast_all c fs Hw)]; auto) bs Hb)
    as (S1 & S2 & _).
  destruct (rmem (struct_cast c fs) bs) as [o rest] eqn:E. simpl in *.
  destruct o as [vs|[r id]| | |].
  - left. exists vs, rest. apply struct_cast_correct; auto.
  - right. pose proof (proj1 (read_err_iff c fs bs r id Hw Ht Hb)) as X. rewrite E in X.
    destruct (X eq_refl) as (pre & t & k & post & vs & rest' & Y1 & Y2 & Y3 & Y4).
    exists pre, id, t, k, post, vs, rest'. eauto 6.
  - right. pose proof (proj1 (read_ub_iff c fs bs Hw Ht Hb)) as X. rewrite E in X.
    destruct (X eq_refl) as (pre & id & t & k & post & vs & rest' & Y1 & Y2 & Y3 & Y4).
    exists pre, id, t, k, post, vs, rest'. auto 6.
  - congruence.
  - exfalso. apply (rmem_no_throw (struct_cast c fs) bs). rewrite E. auto.
Qed.
