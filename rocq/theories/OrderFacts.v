(** * Two runs of fields exchanged *)
From Coq Require Import ZifyBool ZifyNat Permutation.
From Verif Require Import Read Write Static WSpec Typing PropDefs MoreSpec Laws DegenSpec.
From Verif Require Import BytesFacts ProgFacts ReadFacts ReadMore ReadLemmas ReadFinal Safety RExactFacts.
From Verif Require Import GroupSpec WriteFacts WriteMain WriteLoc WriteRel AppendFacts EquivFacts LawMore GroupFacts.

(** ** What the producers of a length agree on *)

Definition verdict (l : list Z) : option Z :=
  match l with [] => Some 0 | z :: l' => if forallb (fun x => x =? z) l' then Some z else None end.

Lemma record_agreed l : forall d, d_seen d = true ->
  d_agreed (fold_left record l d) = d_agreed d && forallb (fun x => x =? d_val d) l /\
  (d_agreed (fold_left record l d) = true -> d_val (fold_left record l d) = d_val d).
Proof.
  induction l as [|z l IH]; intros d Hd; simpl.
  - rewrite andb_true_r. auto.
  - destruct (IH (record d z) eq_refl) as [A B]. rewrite A. cbn [record d_agreed d_val d_seen] in *.
    rewrite Hd in *. cbn [andb negb] in *. destruct (Z.eqb_spec z (d_val d)) as [->|N]; cbn [negb andb] in *.
    + split; auto. intros H. apply B. rewrite A. auto.
    + rewrite andb_false_r. split; auto. discriminate.
Qed.

Lemma record_verdict l :
  let d := fold_left record l (mkD 0 false true) in
  match verdict l with
  | Some z => d_agreed d = true /\ d_val d = z
  | None => d_agreed d = false
  end.
Proof.
  destruct l as [|z l]; simpl; auto.
  destruct (record_agreed l (record (mkD 0 false true) z) eq_refl) as [A B].
  cbn [record d_agreed d_val d_seen andb] in *.
  destruct (forallb _ l); auto.
Qed.

Lemma verdict_all l z : l <> [] -> (verdict l = Some z <-> forall x, In x l -> x = z).
Proof.
  destruct l as [|y l]; [congruence|]. intros _. cbn [verdict].
  destruct (forallb (fun x => x =? y) l) eqn:E.
  - rewrite forallb_forall in E. split.
    + intros [= <-] x [->|H]; auto. apply Z.eqb_eq. auto.
    + intros H. rewrite (H y); simpl; auto.
  - split; [discriminate|]. intros H. exfalso.
    assert (forallb (fun x => x =? y) l = true); [|congruence].
    apply forallb_forall. intros x Hx. apply Z.eqb_eq. rewrite (H x), (H y); simpl; auto.
Qed.

Lemma verdict_perm l l' : Permutation l l' -> verdict l = verdict l'.
Proof.
  intros P. destruct l as [|y l]; [apply Permutation_nil in P as ->; auto|].
  assert (N : y :: l <> []) by discriminate.
  assert (N' : l' <> []) by (intros ->; apply Permutation_sym, Permutation_nil in P; discriminate).
  set (k := y :: l) in *. clearbody k.
  destruct (verdict k) as [z|] eqn:E.
  - symmetry. apply verdict_all; auto. rewrite verdict_all in E by auto.
    intros x H. apply E. eapply Permutation_in; [apply Permutation_sym, P|auto].
  - destruct (verdict l') as [z|] eqn:E'; auto.
    rewrite verdict_all in E' by auto. rewrite <- E. apply verdict_all; auto.
    intros x H. apply E'. eapply Permutation_in; eauto.
Qed.

Lemma block_good c F V x y z vx vy vz : wf F = true -> typed F = true -> has_fields F V ->
  F = f_app x (f_app y z) -> V = vx ++ vy ++ vz -> length vx = f_len x -> length vy = f_len y ->
  good True false
    (enc_fields (c_wire c) y (emit_fields c (fun id => hd_error (claims c id F V)) y vy))
    (wmem (write_fields c F V y vy)).
Proof.
  intros HF HT HV E1 E2 Lx Ly.
  destruct (wctx_intro F V HF HT HV) as [Hx Hm].
  destruct (wf_fields_ids _ _ HF) as [N _].
  pose proof HF as HW. pose proof HT as HTy. pose proof HV as HV'. pose proof Hm as Hm'. unfold wf, typed in HW, HTy.
  revert Hx Hm N HW HTy HV' Hm'. rewrite E1, E2. clear - Lx Ly. intros Hx Hm N HW HTy HV' Hm'.
  apply wf_fields_app in HW as [_ HW]. apply wf_fields_app in HW as [HW _]. rewrite app_nil_r in HW.
  rewrite !typed_fields_app in HTy. apply andb_prop in HTy as [_ HTy]. apply andb_prop in HTy as [HTy _].
  apply has_fields_app' in HV'; auto. destruct HV' as [_ HV']. apply has_fields_app' in HV'; auto.
  destruct HV' as [HV' _].
  apply members_app in Hm'. destruct Hm' as [_ Hm']. apply members_app in Hm'. destruct Hm' as [Hm' _].
  rewrite f_ids_app in N.
  destruct writer_emits as (_ & HE & _).
  apply (HE y c True _ _ vy (tafter [] x) (rev (f_ids x))); auto.
  - intros i Hi. rewrite <- in_rev in Hi. rewrite f_ids_app. apply in_or_app. auto.
  - rewrite !f_ids_app. intros i Hi. apply in_or_app. right. apply in_or_app. auto.
  - rewrite (tafter_app x). eapply tafter_sub; [|reflexivity]. intros i Hi.
    destruct (nodup_apart _ _ N) as [_ D]. apply tlookup_tafter_none; auto.
    intros H. apply (D i H). auto.
Qed.

Lemma enc_split o x y vx vy : length vx = f_len x ->
  enc_fields o (f_app x y) (vx ++ vy) = enc_fields o x vx ++ enc_fields o y vy.
Proof.
  revert vx. induction x as [|i t k x IH]; intros [|v vx] L; simpl in L; try discriminate; auto.
  cbn [f_app app enc_fields]. rewrite IH by lia. apply app_assoc.
Qed.

Section Blocks.
Variables (c : cfg) (pre a b post : fields) (vp va vb vq : list val).
Notation F := (f_app pre (f_app a (f_app b post))).
Notation G := (f_app pre (f_app b (f_app a post))).
Notation V := (vp ++ va ++ vb ++ vq).
Notation W := (vp ++ vb ++ va ++ vq).
Hypothesis (HF : wf F = true).
Hypothesis (Lp : length vp = f_len pre) (La : length va = f_len a) (Lb : length vb = f_len b).

Lemma or_env i : lookup (mk_env F V) i = lookup (mk_env G W) i.
Proof.
  rewrite !lookup_split by auto.
  destruct (memb i (f_ids pre)); auto.
  destruct (memb i (f_ids a)) eqn:A, (memb i (f_ids b)) eqn:B; auto.
  exfalso. destruct (wf_fields_ids _ _ HF) as [N _]. rewrite !f_ids_app in N.
  apply nodup_apart in N as [N _]. apply nodup_apart in N as [_ D].
  apply memb_In in A, B. apply (D i A). apply in_or_app. auto.
Qed.

Lemma or_wf : exists s1 s2 s3 s4, wf_fields s1 pre = true /\ wf_fields s2 a = true /\
  wf_fields s3 b = true /\ wf_fields s4 post = true.
Proof.
  pose proof HF as H. unfold wf in H.
  apply wf_fields_app in H as [H1 H]. apply wf_fields_app in H as [H2 H]. apply wf_fields_app in H as [H3 H4].
  eauto 8.
Qed.

Lemma or_valid : valid c F V -> valid c G W.
Proof.
  unfold valid. intros H.
  assert (X : valid_fields c (mk_env G W) F V).
  { refine (valid_fields_refs c _ _ F [] V HF _ H). intros i _. apply or_env. }
  clear H. set (E := mk_env G W) in *. clearbody E.
  assert (S : forall x y vx vy, length vx = f_len x ->
    (valid_fields c E (f_app x y) (vx ++ vy) <-> valid_fields c E x vx /\ valid_fields c E y vy)).
  { clear. induction x as [|i t k x IH]; intros y [|v vx] vy L; simpl in L; try discriminate.
    - cbn. tauto.
    - cbn [f_app app valid_fields]. rewrite IH by lia. tauto. }
  rewrite !S in * by auto. tauto.
Qed.

(** ** Writing *)

Hypothesis (HT : typed F = true).
Hypothesis (Hp : has_fields pre vp) (Ha : has_fields a va) (Hb : has_fields b vb) (Hq : has_fields post vq).

Lemma or_typed : exists G1 G2 G3 G4, typed_fields G1 pre = true /\ typed_fields G2 a = true /\
  typed_fields G3 b = true /\ typed_fields G4 post = true.
Proof.
  pose proof HT as H. unfold typed in H. rewrite !typed_fields_app in H.
  apply andb_prop in H as [H1 H]. apply andb_prop in H as [H2 H]. apply andb_prop in H as [H3 H4]. eauto 8.
Qed.

Lemma or_derived i : is_derived F i = is_derived G i.
Proof.
  rewrite !derived_split. destruct (is_derived pre i), (is_derived a i), (is_derived b i); auto.
Qed.

Lemma or_cond i : has_cond_obligation F i = has_cond_obligation G i.
Proof.
  rewrite !cond_split.
  destruct (has_cond_obligation pre i), (has_cond_obligation a i), (has_cond_obligation b i); auto.
Qed.

Lemma or_value i u n : derive_value c F V i u n = derive_value c G W i u n.
Proof.
  destruct or_typed as (G1 & G2 & G3 & G4 & T1 & T2 & T3 & T4).
  unfold derive_value. destruct u; auto.
  rewrite !(fold_split c i pre) by auto.
  rewrite (derive_fold_claims c i pre G1 vp _ T1 Hp).
  rewrite !(fold_split c i a), !(fold_split c i b) by auto.
  rewrite (derive_fold_claims c i a G2 va _ T2 Ha), (derive_fold_claims c i b G3 vb _ T3 Hb).
  rewrite !(fold_split c i b), !(fold_split c i a) by auto.
  rewrite (derive_fold_claims c i b G3 vb _ T3 Hb), (derive_fold_claims c i a G2 va _ T2 Ha).
  rewrite !(derive_fold_claims c i post G4 vq _ T4 Hq).
  rewrite <- !fold_left_app.
  set (l1 := claims c i pre vp ++ _). set (l2 := claims c i pre vp ++ _).
  assert (P : verdict l1 = verdict l2).
  { apply verdict_perm. unfold l1, l2. apply Permutation_app_head.
    rewrite !app_assoc. apply Permutation_app_tail. apply Permutation_app_comm. }
  pose proof (record_verdict l1) as R1. pose proof (record_verdict l2) as R2. rewrite <- P in R2.
  cbv zeta in R1, R2. destruct (verdict l1) as [z|].
  - destruct R1 as [-> ->], R2 as [-> ->]. auto.
  - rewrite R1, R2. auto.
Qed.

Lemma both_comm x y : both x y = both y x.
Proof. destruct x, y; simpl; auto. rewrite andb_comm. auto. Qed.

Lemma or_verify i w : verify_cond (mk_env F V) i w F V = verify_cond (mk_env G W) i w G W.
Proof.
  destruct or_wf as (s1 & s2 & s3 & s4 & W1 & W2 & W3 & W4).
  pose proof or_env as E. set (e := mk_env F V) in *. set (e' := mk_env G W) in *.
  rewrite !verify_split by auto.
  rewrite (verify_env e e' i w pre s1), (verify_env e e' i w a s2), (verify_env e e' i w b s3),
    (verify_env e e' i w post s4) by auto.
  f_equal. rewrite <- !both_assoc. f_equal. apply both_comm.
Qed.

Lemma or_block gs seen ws : wf_fields seen gs = true ->
  write_fields c F V gs ws = write_fields c G W gs ws.
Proof.
  intros H. apply (cx_fields c F G V W (fun _ => True) (fun _ => True)) with (seen := seen);
    auto using or_env, or_derived, or_value, or_cond, or_verify.
Qed.

Lemma or_good x y z vx vy vz : F = f_app x (f_app y z) -> V = vx ++ vy ++ vz ->
  length vx = f_len x -> length vy = f_len y ->
  good True false
    (enc_fields (c_wire c) y (emit_fields c (fun id => hd_error (claims c id F V)) y vy))
    (wmem (write_fields c F V y vy)).
Proof.
  intros E1 E2 Lx Ly.
  assert (HV : has_fields F V).
  { assert (X : forall u w vu vw, has_fields u vu -> has_fields w vw -> has_fields (f_app u w) (vu ++ vw)).
    { clear. induction u as [|i t k u IH]; intros w [|v vu] vw; cbn; try tauto. intros [H1 H2] H3. auto. }
    auto. }
  eapply block_good; eauto.
Qed.

Lemma good_ok {E} e (r : outcome E unit) out : good True false e (r, out) -> r = Ok tt -> out = e.
Proof. unfold good. intros H ->. cbn in H. intuition. Qed.

Lemma or_write out : wmem (stream_cast c F V) = (Ok tt, out) ->
  exists ep ea eb eq,
    emitted c F V = ep ++ ea ++ eb ++ eq /\
    length ep = f_len pre /\ length ea = f_len a /\ length eb = f_len b /\
    out = enc_fields (c_wire c) pre ep ++ enc_fields (c_wire c) a ea ++
          enc_fields (c_wire c) b eb ++ enc_fields (c_wire c) post eq /\
    wmem (stream_cast c G W) =
      (Ok tt, enc_fields (c_wire c) pre ep ++ enc_fields (c_wire c) b eb ++
              enc_fields (c_wire c) a ea ++ enc_fields (c_wire c) post eq).
Proof.
  destruct or_wf as (s1 & s2 & s3 & s4 & W1 & W2 & W3 & W4).
  unfold stream_cast. rewrite !write_fields_app by auto. intros H.
  apply wmem_bind_ok in H as ([] & o1 & r1 & H1 & H & ->).
  apply wmem_bind_ok in H as ([] & o2 & r2 & H2 & H & ->).
  apply wmem_bind_ok in H as ([] & o3 & o4 & H3 & H4 & ->).
  set (cl := fun id => hd_error (claims c id F V)).
  pose proof (or_good FNil pre (f_app a (f_app b post)) [] vp (va ++ vb ++ vq) eq_refl eq_refl eq_refl Lp) as K1.
  pose proof (or_good pre a (f_app b post) vp va (vb ++ vq) eq_refl eq_refl Lp La) as K2.
  pose proof (or_good (f_app pre a) b post (vp ++ va) vb vq) as K3.
  pose proof (or_good (f_app pre (f_app a b)) post FNil (vp ++ va ++ vb) vq []) as K4.
  fold cl in K1, K2, K3, K4. rewrite H1 in K1. rewrite H2 in K2. rewrite H3 in K3. rewrite H4 in K4.
  assert (FA : forall x y z, f_app (f_app x y) z = f_app x (f_app y z)).
  { induction x as [|i t k x IH]; intros; cbn [f_app]; congruence. }
  assert (FN : forall x, f_app x FNil = x) by (induction x as [|i t k x IH]; cbn [f_app]; congruence).
  assert (FL : forall x y, f_len (f_app x y) = (f_len x + f_len y)%nat)
    by (induction x as [|i t k x IH]; intros; cbn [f_app f_len]; auto; rewrite IH; auto).
  assert (Lq : length vq = f_len post) by (apply has_fields_length; auto).
  assert (K3' := K3 ltac:(rewrite FA; auto) ltac:(rewrite !app_assoc; auto) ltac:(rewrite app_length, FL; lia) Lb).
  assert (K4' := K4 ltac:(rewrite !FA, FN; auto) ltac:(rewrite !app_assoc, app_nil_r; auto)
    ltac:(rewrite !app_length, !FL; lia) Lq). clear K3 K4.
  apply good_ok in K1, K2, K3', K4'; auto.
  exists (emit_fields c cl pre vp), (emit_fields c cl a va), (emit_fields c cl b vb), (emit_fields c cl post vq).
  split. { unfold emitted. fold cl. rewrite !emit_fields_app by auto. auto. }
  split; [apply emit_fields_length; auto|]. split; [apply emit_fields_length; auto|].
  split; [apply emit_fields_length; auto|]. split; [congruence|].
  rewrite <- K1, <- K2, <- K3', <- K4'.
  apply wmem_bind_ok. exists tt, o1, (o3 ++ o2 ++ o4). split; [rewrite <- (or_block pre s1) by auto; auto|].
  split; auto.
  apply wmem_bind_ok. exists tt, o3, (o2 ++ o4). split; [rewrite <- (or_block b s3) by auto; auto|].
  split; auto.
  apply wmem_bind_ok. exists tt, o2, o4. split; [rewrite <- (or_block a s2) by auto; auto|].
  split; auto. rewrite <- (or_block post s4) by auto. auto.
Qed.
End Blocks.

Lemma cut_values n (l : list val) : (n <= length l)%nat -> exists x y, l = x ++ y /\ length x = n.
Proof. intros H. exists (firstn n l), (skipn n l). rewrite firstn_skipn, firstn_length. split; auto. lia. Qed.

Lemma order_read c pre a b post bs vs rest :
  wf (f_app pre (f_app a (f_app b post))) = true -> wf (f_app pre (f_app b (f_app a post))) = true ->
  Forall byte_ok bs ->
  rmem (struct_cast c (f_app pre (f_app a (f_app b post)))) bs = (Ok vs, rest) ->
  exists vp va vb vq,
    vs = vp ++ va ++ vb ++ vq /\
    length vp = f_len pre /\ length va = f_len a /\ length vb = f_len b /\
    bs = enc_fields (c_wire c) pre vp ++ enc_fields (c_wire c) a va ++
         enc_fields (c_wire c) b vb ++ enc_fields (c_wire c) post vq ++ rest /\
    rmem (struct_cast c (f_app pre (f_app b (f_app a post))))
      (enc_fields (c_wire c) pre vp ++ enc_fields (c_wire c) b vb ++
       enc_fields (c_wire c) a va ++ enc_fields (c_wire c) post vq ++ rest) =
      (Ok (vp ++ vb ++ va ++ vq), rest).
Proof.
  intros HF HG Hb H. apply read_sound in H as [Hv ->]; auto.
  pose proof (valid_fields_length _ _ _ _ Hv) as L.
  assert (FL : forall x y, f_len (f_app x y) = (f_len x + f_len y)%nat)
    by (induction x as [|i t k x IH]; intros; cbn [f_app f_len]; auto; rewrite IH; auto).
  rewrite !FL in L.
  destruct (cut_values (f_len pre) vs) as (vp & r & -> & Lp); [lia|]. rewrite app_length in L.
  destruct (cut_values (f_len a) r) as (va & r2 & -> & La); [lia|]. rewrite app_length in L.
  destruct (cut_values (f_len b) r2) as (vb & vq & -> & Lb); [lia|].
  exists vp, va, vb, vq. do 4 (split; [auto|]).
  assert (Hw : valid c (f_app pre (f_app b (f_app a post))) (vp ++ vb ++ va ++ vq))
    by (apply (or_valid c pre a b post); auto).
  split; [rewrite !enc_split by auto; rewrite <- !app_assoc; auto|].
  pose proof (read_complete c _ _ rest HG Hw) as R. rewrite !enc_split in R by auto.
  rewrite <- !app_assoc in R. exact R.
Qed.

Lemma order_valid c pre a b post vp va vb vq :
  wf (f_app pre (f_app a (f_app b post))) = true -> wf (f_app pre (f_app b (f_app a post))) = true ->
  length vp = f_len pre -> length va = f_len a -> length vb = f_len b ->
  (valid c (f_app pre (f_app a (f_app b post))) (vp ++ va ++ vb ++ vq) <->
   valid c (f_app pre (f_app b (f_app a post))) (vp ++ vb ++ va ++ vq)).
Proof. intros. split; [apply (or_valid c pre a b post)|apply (or_valid c pre b a post)]; auto. Qed.

Lemma order_write c pre a b post vp va vb vq out :
  wf (f_app pre (f_app a (f_app b post))) = true ->
  typed (f_app pre (f_app a (f_app b post))) = true ->
  has_fields pre vp -> has_fields a va -> has_fields b vb -> has_fields post vq ->
  wmem (stream_cast c (f_app pre (f_app a (f_app b post))) (vp ++ va ++ vb ++ vq)) = (Ok tt, out) ->
  exists ep ea eb eq,
    emitted c (f_app pre (f_app a (f_app b post))) (vp ++ va ++ vb ++ vq) = ep ++ ea ++ eb ++ eq /\
    length ep = f_len pre /\ length ea = f_len a /\ length eb = f_len b /\
    out = enc_fields (c_wire c) pre ep ++ enc_fields (c_wire c) a ea ++
          enc_fields (c_wire c) b eb ++ enc_fields (c_wire c) post eq /\
    wmem (stream_cast c (f_app pre (f_app b (f_app a post))) (vp ++ vb ++ va ++ vq)) =
      (Ok tt, enc_fields (c_wire c) pre ep ++ enc_fields (c_wire c) b eb ++
              enc_fields (c_wire c) a ea ++ enc_fields (c_wire c) post eq).
Proof. intros. eapply (or_write c pre a b post vp va vb vq); auto using has_fields_length. Qed.
