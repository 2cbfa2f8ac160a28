(** * The order in which alternatives are listed *)
From Coq Require Import ZifyBool ZifyNat.
From Verif Require Import Read Write Static WSpec Typing PropDefs MoreSpec Laws DegenSpec CaseSpec.
From Verif Require Import BytesFacts ProgFacts ReadFacts ReadMore ReadLemmas Safety StaticSpec StaticWf.
From Verif Require Import GroupSpec WriteFacts WriteMain WriteLoc WriteRel AppendFacts EquivFacts LawMore GroupFacts DegenFacts.

(** ** Which alternative *)

Lemma first_true_some l : forall i, first_true l = Some i -> nth_error l i = Some true.
Proof.
  induction l as [|b l IH]; intros i H; simpl in H; [discriminate|].
  destruct b; [injection H as <-; auto|]. destruct (first_true l) as [j|]; [|discriminate].
  injection H as <-. simpl. auto.
Qed.

Lemma first_true_none l : first_true l = None -> forall i, nth_error l i <> Some true.
Proof.
  induction l as [|b l IH]; intros H i; simpl in H; [destruct i; discriminate|].
  destruct b; [discriminate|]. destruct (first_true l); [discriminate|].
  destruct i; simpl; [discriminate|auto].
Qed.

Lemma nth_error_map_inv {A B} (f : A -> B) l i b : nth_error (map f l) i = Some b ->
  exists a, nth_error l i = Some a /\ b = f a.
Proof. rewrite nth_error_map. destruct (nth_error l i); simpl; [|discriminate]. intros [= <-]. eauto. Qed.

Lemma switch_some s z cs i : eval_switch s z cs = Some i ->
  exists m, nth_error cs i = Some m /\ cxx_eq s z (fst m) (snd m) = true.
Proof.
  intros H. apply first_true_some, nth_error_map_inv in H as (m & Hm & E). eauto.
Qed.

Lemma switch_none s z cs : eval_switch s z cs = None ->
  forall i m, nth_error cs i = Some m -> cxx_eq s z (fst m) (snd m) = true -> False.
Proof.
  intros H i m Hm E. apply (first_true_none _ H i). rewrite nth_error_map, Hm. simpl. congruence.
Qed.

Lemma ladder_some e brs : forall i, eval_ladder e brs = Some (Some i) ->
  exists b vs, nth_error brs i = Some b /\ lookups e (snd b) = Some vs /\ fst b vs = true.
Proof.
  induction brs as [|[p ids] brs IH]; intros i H; simpl in H; [discriminate|].
  destruct (lookups e ids) as [vs|] eqn:E; [|discriminate].
  destruct (p vs) eqn:Ep.
  - injection H as <-. exists (p, ids), vs. auto.
  - destruct (eval_ladder e brs) as [[j|]|]; try discriminate. injection H as <-.
    destruct (IH j eq_refl) as (b & ws & H). exists b, ws. auto.
Qed.

Lemma ladder_none e brs : eval_ladder e brs = Some None ->
  forall i b vs, nth_error brs i = Some b -> lookups e (snd b) = Some vs -> fst b vs = true -> False.
Proof.
  induction brs as [|[p ids] brs IH]; intros H i b vs Hn Hl Hp; simpl in H; [destruct i; discriminate|].
  destruct (lookups e ids) as [ws|] eqn:E; [|discriminate].
  destruct (p ws) eqn:Ep; [discriminate|].
  destruct (eval_ladder e brs) as [[j|]|] eqn:Er; try discriminate.
  destruct i; simpl in Hn; [|eapply IH; eauto].
  injection Hn as <-. cbn [fst snd] in *. congruence.
Qed.

Lemma ladder_stuck e brs : eval_ladder e brs = None -> exists b, In b brs /\ lookups e (snd b) = None.
Proof.
  induction brs as [|[p ids] brs IH]; intros H; simpl in H; [discriminate|].
  destruct (lookups e ids) as [ws|] eqn:E; [|exists (p, ids); simpl; auto].
  destruct (p ws); [discriminate|]. destruct (eval_ladder e brs) as [[j|]|]; try discriminate.
  destruct (IH eq_refl) as (b & Hb & Hl). exists b. simpl; auto.
Qed.

Lemma deduce_applies e g i : deduce_type e g = Some (Some i) -> applies e g i.
Proof.
  destruct g; cbn [deduce_type applies].
  - destruct (lookup e id) as [[]|]; try discriminate. intros [= H].
    apply switch_some in H as (m & H). exists z, m. tauto.
  - destruct (lookups e ids) as [vs|]; [|discriminate]. intros [= H].
    apply switch_some in H as (m & H). exists vs, m. tauto.
  - apply ladder_some.
Qed.

Lemma deduce_nothing e g i : deduce_type e g = Some None -> ~ applies e g i.
Proof.
  destruct g; cbn [deduce_type applies].
  - destruct (lookup e id) as [[]|]; try discriminate. intros [= H] (w & m & [= <-] & Hm & E).
    eapply switch_none; eauto.
  - destruct (lookups e ids) as [vs|]; [|discriminate]. intros [= H] (w & m & [= <-] & Hm & E).
    eapply switch_none; eauto.
  - intros H (b & vs & A & B & D). eapply ladder_none; eauto.
Qed.

Section Moved.
Variables (n : nat) (p q : nat -> nat) (g g' : guide).
Hypothesis (Hs : shuffle n p q) (Hg : guide_moved n p g g').

Lemma moved_from {A} (l l' : list A) j a : moved n p l l' -> nth_error l' j = Some a ->
  (j < n)%nat /\ nth_error l (q j) = Some a /\ p (q j) = j.
Proof.
  intros (L & L' & H) Hj.
  assert (Hn : (j < n)%nat) by (rewrite <- L'; apply nth_error_Some; congruence).
  destruct (Hs j Hn) as (_ & Hq & _ & E). split; auto. split; auto. rewrite <- H, E; auto.
Qed.

Lemma moved_to {A} (l l' : list A) i a : moved n p l l' -> nth_error l i = Some a ->
  (i < n)%nat /\ nth_error l' (p i) = Some a.
Proof.
  intros (L & L' & H) Hi.
  assert (Hn : (i < n)%nat) by (rewrite <- L; apply nth_error_Some; congruence).
  split; auto. rewrite H; auto.
Qed.

Lemma applies_to e i : applies e g i -> (i < n)%nat /\ applies e g' (p i).
Proof.
  destruct Hg as [id s cs cs' M|f r ids cs cs' M|brs brs' M]; cbn [applies].
  - intros (z & m & A & B & D). destruct (moved_to _ _ _ _ M B). split; auto. exists z, m. auto.
  - intros (z & m & A & B & D). destruct (moved_to _ _ _ _ M B). split; auto. exists z, m. auto.
  - intros (b & vs & A & B & D). destruct (moved_to _ _ _ _ M A). split; auto. exists b, vs. auto.
Qed.

Lemma applies_from e j : applies e g' j -> (j < n)%nat /\ applies e g (q j) /\ p (q j) = j.
Proof.
  destruct Hg as [id s cs cs' M|f r ids cs cs' M|brs brs' M]; cbn [applies].
  - intros (z & m & A & B & D). destruct (moved_from _ _ _ _ M B) as (? & ? & ?).
    split; auto. split; auto. exists z, m. auto.
  - intros (z & m & A & B & D). destruct (moved_from _ _ _ _ M B) as (? & ? & ?).
    split; auto. split; auto. exists z, m. auto.
  - intros (b & vs & A & B & D). destruct (moved_from _ _ _ _ M A) as (? & ? & ?).
    split; auto. split; auto. exists b, vs. auto.
Qed.

Lemma deduce_moved e : (forall E i j, applies E g i -> applies E g j -> i = j) ->
  (forall brs b, (g = GLadder brs \/ g' = GLadder brs) -> In b brs -> lookups e (snd b) <> None) ->
  deduce_type e g' = option_map (option_map p) (deduce_type e g).
Proof.
  intros Hx Hl.
  destruct (deduce_type e g) as [[i|]|] eqn:D; cbn [option_map].
  - apply deduce_applies in D. destruct (applies_to _ _ D) as [Hi A].
    destruct (deduce_type e g') as [[j|]|] eqn:D'.
    + apply deduce_applies, applies_from in D' as (Hj & A' & E).
      rewrite (Hx e i (q j)); auto. rewrite E; auto.
    + exfalso. exact (deduce_nothing _ _ _ D' A).
    + exfalso. clear A Hi. destruct Hg as [id s cs cs' M|f r ids cs cs' M|brs brs' M]; cbn [deduce_type applies] in *.
      * destruct D as (z & m & A & _). rewrite A in D'. discriminate.
      * destruct D as (z & m & A & _). rewrite A in D'. discriminate.
      * apply ladder_stuck in D' as (b & Hb & E). apply (Hl brs' b (or_intror eq_refl) Hb E).
  - destruct (deduce_type e g') as [[j|]|] eqn:D'; auto.
    + exfalso. apply deduce_applies, applies_from in D' as (Hj & A' & E).
      exact (deduce_nothing _ _ _ D A').
    + exfalso. destruct Hg as [id s cs cs' M|f r ids cs cs' M|brs brs' M]; cbn [deduce_type] in *.
      * destruct (lookup e id) as [[]|]; discriminate.
      * destruct (lookups e ids); discriminate.
      * apply ladder_stuck in D' as (b & Hb & E). apply (Hl brs' b (or_intror eq_refl) Hb E).
  - destruct Hg as [id s cs cs' M|f r ids cs cs' M|brs brs' M]; cbn [deduce_type] in *.
    + destruct (lookup e id) as [[]|]; auto; discriminate.
    + destruct (lookups e ids); auto; discriminate.
    + exfalso. apply ladder_stuck in D as (b & Hb & E). apply (Hl brs b (or_introl eq_refl) Hb E).
Qed.
End Moved.

(** ** Reading *)

Lemma read_alts_nth c e al : forall i,
  read_alts c e al i =
  match a_nth i al with Some (t, k) => rbind (read_ty c e t) (rcheck k) | None => RStuck end.
Proof. induction al; intros [|i]; simpl; auto. Qed.

Lemma write_alts_nth c F V id al v : forall i,
  write_alts c F V id al i v =
  match a_nth i al with
  | Some (t, k) => wbind (wcheck k v) (fun _ => write_ty c F V id false k t v)
  | None => WStuck
  end.
Proof. induction al; intros [|i]; simpl; auto. Qed.

Lemma ladder_wf e pre g : (forall i, In i (f_ids pre) -> exists w, lookup e i = Some w) ->
  guide_wf (rev (f_ids pre)) g = true ->
  forall brs b, g = GLadder brs -> In b brs -> lookups e (snd b) <> None.
Proof.
  intros De W brs b -> Hb. cbn [guide_wf] in W. rewrite forallb_forall in W.
  destruct (lookups_ids e pre (snd b) De (W b Hb)) as [vs ->]. discriminate.
Qed.

Lemma reordered_read c p q t t' pre id post S alloc s :
  reordered p q t t' -> exclusive t ->
  wf (f_app pre (FCons id t CNone post)) = true -> wf (f_app pre (FCons id t' CNone post)) = true ->
  ~ In id (refs_fields post) ->
  rrun S alloc (struct_cast c (f_app pre (FCons id t' CNone post))) s =
  let '(o, s', ev) := rrun S alloc (struct_cast c (f_app pre (FCons id t CNone post))) s in
  (on_ok (at_pos (f_len pre) (renumber p)) o, s', ev).
Proof.
  intros (g & al & g' & al' & -> & -> & Hs & Hg & (_ & _ & Ha)) Hx W W' Hr. cbn [exclusive] in Hx.
  assert (R : rel (fun _ => true) (at_pos (f_len pre) (renumber p))
    (rrun S alloc (struct_cast c (f_app pre (FCons id (FUnion g' al') CNone post))) s)
    (rrun S alloc (struct_cast c (f_app pre (FCons id (FUnion g al) CNone post))) s)).
  { apply swap_read; auto. clear s W W'. intros e s De W' W. rewrite !rrun_check_none.
    cbn [read_ty wf_ty] in *. apply andb_prop in W as [W _]. apply andb_prop in W' as [W' _].
    rewrite (deduce_moved _ _ _ _ _ Hs Hg e Hx).
    - destruct (deduce_type e g) as [[i|]|] eqn:D; cbn [option_map]; try (unfold rel; cbn; auto; fail).
      apply deduce_applies in D. destruct (applies_to _ _ _ _ Hg _ _ D) as [Hi _].
      rewrite !read_alts_nth, Ha by auto.
      rewrite !rrun_bind.
      destruct (rrun S alloc _ s) as [[[v|r| | |] s1] ev1]; unfold rel; cbn; rewrite ?app_nil_r; auto.
    - intros brs b [E|E] Hb; [exact (ladder_wf e pre g De W brs b E Hb)|exact (ladder_wf e pre g' De W' brs b E Hb)]. }
  apply rel_all in R. rewrite R.
  destruct (rrun S alloc (struct_cast c (f_app pre (FCons id (FUnion g al) CNone post))) s) as [[o s'] ev]. auto.
Qed.

(** ** Writing *)

Section WSame.
Variables (c : cfg) (pre post : fields) (id : ident) (t t' : fty) (f : val -> val).
Variables (vs us : list val) (v : val).
Notation F := (f_app pre (FCons id t CNone post)).
Notation G := (f_app pre (FCons id t' CNone post)).
Notation VF := (vs ++ f v :: us).
Notation VG := (vs ++ v :: us).
Hypothesis (HF : wf F = true) (HG : wf G = true) (Hr : ~ In id (refs_fields post)).
Hypothesis (Hv : has_fields pre vs) (Hu : has_fields post us).
Hypothesis (Ht : forall i, ident_is (len_target t) i = ident_is (len_target t') i)
  (Hd : forall i, ident_is (disc_target t) i = ident_is (disc_target t') i)
  (Hi : forall i, implied c i t (f v) = implied c i t' v)
  (Hc : forall i, has_cond_obligation_of t i = has_cond_obligation_of t' i)
  (Ha : forall e i w, cond_agrees e i w t (f v) = cond_agrees e i w t' v)
  (Hn : match t with FMaybe _ _ _ => False | _ => True end).

Let L1 : length vs = f_len pre := has_fields_length _ _ Hv.

Lemma ws_env i : i <> id -> lookup (mk_env F VF) i = lookup (mk_env G VG) i.
Proof.
  intros Hj. rewrite !lookup_split by auto. destruct (memb i (f_ids pre)); auto.
  cbn [mk_env lookup]. destruct (String.eqb_spec id i); auto. congruence.
Qed.

Lemma ws_derived i : is_derived F i = is_derived G i.
Proof.
  rewrite !(derived_split pre). f_equal. unfold is_derived. cbn [is_length_derived is_disc_derived].
  rewrite Ht, Hd. auto.
Qed.

Lemma ws_value i u n : derive_value c F VF i u n = derive_value c G VG i u n.
Proof.
  unfold derive_value. destruct u; auto. rewrite !fold_split by auto.
  destruct (derive_fold c i pre vs _) as [d|]; auto. cbn [derive_fold]. rewrite Hi. auto.
Qed.

Lemma ws_cond i : has_cond_obligation F i = has_cond_obligation G i.
Proof. rewrite !(cond_split pre). f_equal. cbn [has_cond_obligation]. rewrite Hc. auto. Qed.

Lemma ws_names : ~ In id (f_ids pre) /\ ~ In id (f_ids post) /\
  wf_fields [] pre = true /\ wf_fields (rev (f_ids pre)) post = true /\
  wf_ty (rev (f_ids pre)) t = true /\ wf_ty (rev (f_ids pre)) t' = true.
Proof.
  destruct (sw_parts pre post id Hr _ _ HF) as (W1 & W2 & W3 & I1 & I2 & I3).
  destruct (sw_parts pre post id Hr _ _ HG) as (_ & W4 & _). auto 10.
Qed.

Lemma ws_verify i w : verify_cond (mk_env F VF) i w F VF = verify_cond (mk_env G VG) i w G VG.
Proof.
  destruct ws_names as (I1 & I2 & W1 & W3 & _).
  set (e := mk_env F VF). set (e' := mk_env G VG).
  rewrite !verify_split by auto. cbn [verify_cond].
  rewrite (verify_env e e' i w pre [] vs), (verify_env e e' i w post (rev (f_ids pre)) us); auto.
  - assert (cond_agrees e i w t (f v) = cond_agrees e' i w t (f v)) as ->.
    { unfold cond_agrees. destruct t; auto. destruct Hn. }
    rewrite Ha. auto.
  - intros j Hj. apply ws_env. intros ->. rewrite <- in_rev in Hj. tauto.
  - intros j Hj. apply ws_env. intros ->. simpl in Hj. tauto.
Qed.

Lemma ws_field hs seen ws : wf_fields seen hs = true -> ~ In id seen -> ~ In id (f_ids hs) ->
  write_fields c F VF hs ws = write_fields c G VG hs ws.
Proof.
  intros H H1 H2.
  apply (cx_fields c F G VF VG (fun i => i <> id) (fun i => True)) with (seen := seen);
    auto using ws_env, ws_derived, ws_value, ws_cond, ws_verify.
  intros i [Hj|Hj] ->; auto.
Qed.

Lemma ws_type u mem j w : wf_ty (rev (f_ids pre)) u = true ->
  write_ty c F VF id mem j u w = write_ty c G VG id mem j u w.
Proof.
  intros H. destruct ws_names as (I1 & _).
  apply (proj1 (cx_write c F G VF VG (fun i => i <> id) (fun i => True)
    ws_env (fun i _ => ws_derived i) (fun i u n _ => ws_value i u n) (fun i _ => ws_cond i)
    (fun i w _ => ws_verify i w)) u (rev (f_ids pre))); auto.
  intros i Hj ->. rewrite <- in_rev in Hj. auto.
Qed.

Lemma ws_write :
  write_ty c G VG id true CNone t (f v) = write_ty c G VG id true CNone t' v ->
  stream_cast c F VF = stream_cast c G VG.
Proof.
  intros H. destruct ws_names as (I1 & I2 & W1 & W3 & W4 & _).
  unfold stream_cast. rewrite !write_fields_app by auto.
  apply wbind_ext2; [apply (ws_field pre []); auto|]. intros _. cbn [write_fields].
  assert (N : forall (b : bool) w, (if b then WRet tt else wcheck CNone w) = WRet tt)
    by (intros []; auto).
  rewrite !N. cbn [wbind]. rewrite (ws_type t true CNone (f v)) by auto.
  apply wbind_ext2; [rewrite H; auto|]. intros _.
  apply (ws_field post (rev (f_ids pre))); auto. rewrite <- in_rev. auto.
Qed.
End WSame.

Lemma alts_target_in al i : alts_target al i = true <->
  exists j t k, a_nth j al = Some (t, k) /\ ident_is (len_target t) i = true.
Proof.
  induction al as [|t k al IH]; simpl.
  - split; [discriminate|]. intros ([|j] & t & k & [=] & _).
  - rewrite orb_true_iff, IH. split.
    + intros [H|(j & u & m & H)]; [exists O, t, k; auto|exists (S j), u, m; auto].
    + intros ([|j] & u & m & H & E); [injection H as <- <-; auto|right; eauto].
Qed.

Lemma a_nth_lt al : forall i x, a_nth i al = Some x -> (i < a_len al)%nat.
Proof. induction al; intros [|i] x H; simpl in *; try discriminate; try lia. apply IHal in H. lia. Qed.

Lemma alts_target_moved n p q al al' i : shuffle n p q -> alts_moved n p al al' ->
  alts_target al' i = alts_target al i.
Proof.
  intros Hs (L & L' & H). apply eq_true_iff_eq. rewrite !alts_target_in. split.
  - intros (j & t & k & A & B). assert (Hj := a_nth_lt _ _ _ A). rewrite L' in Hj.
    destruct (Hs j Hj) as (_ & Hq & _ & E). exists (q j), t, k. split; auto. rewrite <- H, E; auto.
  - intros (j & t & k & A & B). assert (Hj := a_nth_lt _ _ _ A). rewrite L in Hj.
    exists (p j), t, k. split; auto. rewrite H; auto.
Qed.

Lemma reordered_write c p q t t' pre id post S s ws :
  reordered p q t t' -> exclusive t \/ from_field t ->
  wf (f_app pre (FCons id t CNone post)) = true -> wf (f_app pre (FCons id t' CNone post)) = true ->
  ~ In id (refs_fields post) ->
  has_fields (f_app pre (FCons id t CNone post)) ws ->
  wrun S (stream_cast c (f_app pre (FCons id t' CNone post)) (at_pos (f_len pre) (renumber p) ws)) s =
  wrun S (stream_cast c (f_app pre (FCons id t CNone post)) ws) s.
Proof.
  intros (g & al & g' & al' & -> & -> & Hs & Hg & Hm) Hx W W' Hr H. f_equal.
  apply has_at in H as (vs & v & us & -> & Hv & Ht & Hu).
  rewrite <- (has_fields_length _ _ Hv), at_pos_app.
  destruct v as [z|l|l| |v|i v|w0 z0]; try (destruct Ht; fail). cbn [renumber has_ty] in *.
  apply has_alt_nth in Ht as (u & k & An & Ht). assert (Hi := a_nth_lt _ _ _ An).
  pose proof Hm as (La & La' & Ha).
  assert (An' : a_nth (p i) al' = Some (u, k)) by (rewrite Ha; auto).
  change (VAlt (p i) v) with ((fun x => renumber p x) (VAlt i v)).
  apply ws_write; auto.
  - intros j. destruct Hg; auto.
  - intros j. unfold implied. destruct Hg as [id' s' cs cs' M|f r ids cs cs' M|brs brs' M]; auto.
    cbn [len_target disc_target ident_is renumber]. destruct (String.eqb id' j); auto.
    unfold value_at. destruct M as (_ & _ & M). rewrite M; auto.
  - intros j. unfold has_cond_obligation_of. f_equal. eapply alts_target_moved; eauto.
  - intros e j w. unfold cond_agrees. cbn [cond_target ident_is renumber]. rewrite An, An'. auto.
  - cbn [write_ty renumber]. rewrite !write_alts_nth, An, An'.
    destruct (sw_parts pre post id Hr _ _ W) as (_ & W1 & _).
    destruct (sw_parts pre post id Hr _ _ W') as (_ & W2 & _).
    cbn [wf_ty] in *. apply andb_prop in W1 as [W1 _]. apply andb_prop in W2 as [W2 _].
    assert (De : forall j, In j (f_ids pre) -> exists w, lookup
      (mk_env (f_app pre (FCons id (FUnion g al) CNone post)) (vs ++ VAlt i v :: us)) j = Some w).
    { intros j Hj. rewrite lookup_split by (apply has_fields_length; auto).
      rewrite (proj2 (memb_In j (f_ids pre)) Hj). apply dom_mk_env; auto using has_fields_length. }
    set (e := mk_env _ _) in *. clearbody e.
    assert (X : from_field (FUnion g al) \/ (~ from_field (FUnion g al) /\ exclusive (FUnion g al)))
      by (destruct g, Hx; cbn in *; tauto).
    destruct X as [X|[X Y]]; [destruct g; try (destruct X; fail); inversion Hg; auto|].
    cbn [exclusive] in Y.
    assert (D : deduce_type e g' = option_map (option_map p) (deduce_type e g)).
    { apply (deduce_moved _ _ _ _ _ Hs Hg e Y). intros brs b [E|E] Hb; [exact (ladder_wf e pre g De W1 brs b E Hb)|exact (ladder_wf e pre g' De W2 brs b E Hb)]. }
    assert (B : forall j, deduce_type e g = Some (Some j) -> Nat.eqb (p j) (p i) = Nat.eqb j i).
    { intros j Hj. apply deduce_applies in Hj. destruct (applies_to _ _ _ _ Hg _ _ Hj) as [Lj _].
      destruct (Hs j Lj) as (_ & _ & E1 & _), (Hs i Hi) as (_ & _ & E2 & _).
      destruct (Nat.eqb_spec j i) as [->|N]; [apply Nat.eqb_refl|]. apply Nat.eqb_neq. congruence. }
    rewrite D. clear D. set (d := deduce_type e g) in *. clearbody d.
    destruct Hg; [destruct X; exact I| |];
      (destruct d as [[j|]|]; cbn [option_map]; auto; rewrite B; auto).
Qed.

(** ** When cases exclude each other *)

Lemma pow256_div w w' : (w <= w')%nat -> (pow256 w | pow256 w').
Proof.
  intros H. exists (256 ^ Z.of_nat (w' - w)). unfold pow256. rewrite <- Z.pow_add_r by lia. f_equal. lia.
Qed.

Lemma conv_wide w sg a b m : conv (SInt w sg) a = conv (SInt w sg) b -> (m | pow256 w) -> 0 < m ->
  a mod m = b mod m.
Proof.
  intros H Hk Hm. assert (E : a mod pow256 w = b mod pow256 w).
  { assert (0 < pow256 w) by (unfold pow256; apply Z.pow_pos_nonneg; lia).
    pose proof (Z.mod_pos_bound a (pow256 w)). pose proof (Z.mod_pos_bound b (pow256 w)).
    destruct sg; cbn [conv] in H; auto.
    destruct (Z.ltb_spec (2 * (a mod pow256 w)) (pow256 w)), (Z.ltb_spec (2 * (b mod pow256 w)) (pow256 w)); lia. }
  assert (0 < pow256 w) by (unfold pow256; apply Z.pow_pos_nonneg; lia).
  rewrite (Znumtheory.Zmod_div_mod m (pow256 w) a), (Znumtheory.Zmod_div_mod m (pow256 w) b) by auto.
  congruence.
Qed.

Lemma common_wide a b : exists w sg, common a b = SInt w sg /\ (ssize a <= w)%nat /\ (ssize b <= w)%nat.
Proof.
  unfold common, promote. destruct a as [w1 s1|], b as [w2 s2|]; cbn [ssize].
  all: repeat match goal with |- context [Nat.ltb ?x ?y] => destruct (Nat.ltb_spec x y) end.
  all: repeat match goal with |- context [Nat.eqb ?x ?y] => destruct (Nat.eqb_spec x y) end.
  all: repeat match goal with |- context [Nat.ltb ?x ?y] => destruct (Nat.ltb_spec x y) end.
  all: eexists _, _; split; [reflexivity|lia].
Qed.

Lemma sc_in_inj s a b : sc_in s a = true -> sc_in s b = true ->
  a mod pow256 (ssize s) = b mod pow256 (ssize s) -> a = b.
Proof.
  destruct s as [w [|]|]; cbn [sc_in ssize]; intros A B E.
  - assert (0 < pow256 w) by (unfold pow256; apply Z.pow_pos_nonneg; lia).
    assert (- pow256 w < a - b < pow256 w) by lia.
    pose proof (Z.div_mod a (pow256 w) ltac:(lia)) as Da. pose proof (Z.div_mod b (pow256 w) ltac:(lia)) as Db.
    rewrite E in Da. assert (D : a - b = pow256 w * (a / pow256 w - b / pow256 w)) by lia.
    assert (a / pow256 w - b / pow256 w = 0) by nia. nia.
  - rewrite !Z.mod_small in E by lia. auto.
  - change (pow256 1) with 256 in E. rewrite !Z.mod_small in E by lia. auto.
Qed.

Lemma one_type_exclusive s z cs i j a b : one_type s cs -> NoDup (map snd cs) ->
  nth_error cs i = Some a -> cxx_eq s z (fst a) (snd a) = true ->
  nth_error cs j = Some b -> cxx_eq s z (fst b) (snd b) = true -> i = j.
Proof.
  intros O N Ha Ea Hb Eb.
  assert (V : snd a = snd b).
  { unfold cxx_eq in *. apply Z.eqb_eq in Ea, Eb.
    destruct (common_wide s (fst a)) as (w1 & g1 & E1 & A1 & B1).
    destruct (common_wide s (fst b)) as (w2 & g2 & E2 & A2 & B2).
    rewrite E1 in Ea. rewrite E2 in Eb. apply nth_error_In in Ha, Hb.
    assert (P : forall w, 0 < pow256 w) by (intros; unfold pow256; apply Z.pow_pos_nonneg; lia).
    destruct O as [O|[u O]]; rewrite Forall_forall in O.
    - apply (sc_in_inj s); auto.
      rewrite <- (conv_wide _ _ _ _ (pow256 (ssize s)) Ea), <- (conv_wide _ _ _ _ (pow256 (ssize s)) Eb);
        auto using pow256_div.
    - destruct (O _ Ha) as [Ua Ia], (O _ Hb) as [Ub Ib]. rewrite Ua in *. rewrite Ub in *.
      apply (sc_in_inj u); auto.
      rewrite <- (conv_wide _ _ _ _ (pow256 (ssize u)) Ea), <- (conv_wide _ _ _ _ (pow256 (ssize u)) Eb);
        auto using pow256_div. }
  pose proof (map_nth_error snd _ _ Ha) as Ma. pose proof (map_nth_error snd _ _ Hb) as Mb.
  rewrite NoDup_nth_error in N. apply N; [|congruence].
  apply nth_error_Some. congruence.
Qed.

Lemma switch_exclusive szw t s cs : switch_of t s cs -> one_type s cs ->
  NoDup (map (fun m => snd m mod pow256 szw) cs) -> exclusive t.
Proof.
  intros H O N.
  assert (N' : NoDup (map snd cs)).
  { rewrite <- map_map with (f := snd) (g := fun z => z mod pow256 szw) in N. eapply NoDup_map_inv; eauto. }
  destruct H; cbn [exclusive applies].
  - intros E i j (z & a & A & B & D) (z' & b & A' & B' & D'). assert (z' = z) by congruence. subst z'.
    eapply one_type_exclusive; eauto.
  - intros E i j (z & a & A & B & D) (z' & b & A' & B' & D'). assert (z' = z) by congruence. subst z'.
    eapply one_type_exclusive; eauto.
Qed.

Lemma moved_map {A B} (f : A -> B) n p l l' : moved n p l l' -> moved n p (map f l) (map f l').
Proof.
  intros (L & L' & H). split; [|split]; rewrite ?map_length; auto.
  intros i Hi. rewrite !nth_error_map, H; auto.
Qed.

Lemma moved_nodup {A} n p q (l l' : list A) : shuffle n p q -> moved n p l l' -> NoDup l -> NoDup l'.
Proof.
  intros Hs M N. rewrite NoDup_nth_error in *. intros i j Hi E.
  destruct (nth_error l' i) as [a|] eqn:Ei; [|apply nth_error_None in Ei; lia]. symmetry in E.
  destruct (moved_from _ _ _ Hs _ _ _ _ M Ei) as (_ & Hqi & Pi).
  destruct (moved_from _ _ _ Hs _ _ _ _ M E) as (_ & Hqj & Pj).
  rewrite <- Pi, <- Pj. f_equal. apply N; [|congruence]. apply nth_error_Some. congruence.
Qed.

Lemma shuffle_back n p q : shuffle n p q -> shuffle n q p.
Proof. intros H i Hi. destruct (H i Hi) as (? & ? & ? & ?). auto. Qed.

Lemma moved_back {A} n p q (l l' : list A) : shuffle n p q -> moved n p l l' -> moved n q l' l.
Proof.
  intros Hs (L & L' & H). split; [|split]; auto. intros i Hi. destruct (Hs i Hi) as (_ & Hq & _ & E).
  rewrite <- H, E; auto.
Qed.

Lemma guide_moved_unique szw n p q g g' : shuffle n p q -> guide_moved n p g g' ->
  values_unique szw g' = values_unique szw g.
Proof.
  intros Hs Hg. apply eq_true_iff_eq. rewrite !values_unique_iff.
  assert (X : forall cs cs' : list (sty * Z), moved n p cs cs' ->
    NoDup (map (fun sv => snd sv mod 256 ^ Z.of_nat szw) cs') <->
    NoDup (map (fun sv => snd sv mod 256 ^ Z.of_nat szw) cs)).
  { intros cs cs' M. apply (moved_map (fun sv => snd sv mod 256 ^ Z.of_nat szw)) in M. split.
    - apply (moved_nodup n q p); auto using shuffle_back. eapply moved_back; eauto.
    - apply (moved_nodup n p q); auto. }
  destruct Hg; cbn [match_values_of]; auto. tauto.
Qed.

Lemma reordered_unique szw p q g al g' al' : reordered p q (FUnion g al) (FUnion g' al') ->
  values_unique szw g' = values_unique szw g.
Proof.
  intros (a & b & a' & b' & [= <- <-] & [= <- <-] & Hs & Hg & _). eapply guide_moved_unique; eauto.
Qed.

Lemma unique_exclusive szw t s cs : switch_of t s cs -> one_type s cs ->
  accepted_ty szw CNone t = true -> exclusive t.
Proof.
  intros H O A. apply (switch_exclusive szw t s cs); auto.
  destruct H; cbn [accepted_ty] in A; apply andb_prop in A as [A _]; apply values_unique_iff in A; auto.
Qed.
