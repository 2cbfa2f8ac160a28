(** * Proofs about kinds of messages *)
From Coq Require Import String Lia Permutation List.
From Verif Require Import Safety ProgFacts ReadFacts ReadLemmas ReadMore ReadFinal RExactFacts LawMore WriteFinal WriteLoc Rewrite PropDefs EvolveFacts DispatchSpec.
Import ListNotations.
Open Scope Z_scope.

Lemma rmem_field c pre id t k post bs vs r1 :
  wf (f_app pre (FCons id t k post)) = true ->
  rmem (struct_cast c pre) bs = (Ok vs, r1) -> length vs = f_len pre ->
  exists e2,
  rmem (struct_cast c (f_app pre (FCons id t k post))) bs =
  match rmem (rbind (read_ty c (mk_env pre vs) t) (rcheck k)) r1 with
  | (Ok v, r2) =>
      match rmem (read_fields c (update e2 id v) post) r2 with
      | (Ok ws, r3) => (Ok (vs ++ v :: ws), r3)
      | (Err e, r3) => (Err e, r3)
      | (UB, r3) => (UB, r3)
      | (Stuck, r3) => (Stuck, r3)
      | (Throw, r3) => (Throw, r3)
      end
  | (Err r, r2) => (Err (r, id), r2)
  | (UB, r2) => (UB, r2)
  | (Stuck, r2) => (Stuck, r2)
  | (Throw, r2) => (Throw, r2)
  end.
Proof.
  intros Hwf H1 Hl. set (fs := f_app pre (FCons id t k post)) in *.
  exists (updates (mk_env fs (default_fields fs)) pre vs).
  rewrite (req_rmem _ _ (struct_cast_app c pre (FCons id t k post) Hwf)).
  rewrite rmem_bind, H1. fold fs.
  unfold wf in Hwf. apply wf_fields_app in Hwf. destruct Hwf as [W1 W2].
  cbn [wf_fields] in W2. apply andb_true_iff in W2. destruct W2 as [W2 W4].
  apply andb_true_iff in W2. destruct W2 as [W2 W3].
  cbn [read_fields].
  rewrite (read_ty_agree c (rev (f_ids pre) ++ []) _ (mk_env pre vs) t W3).
  - set (q := rbind (read_ty c (mk_env pre vs) t) (rcheck k)).
    rewrite !rmem_bind, rmem_maperr.
    destruct (rmem q r1) as [[v|r0| | |] r2]; auto.
    rewrite rmem_bind.
    destruct (rmem (read_fields _ _ post) r2) as [[ws|r0| | |] r3]; reflexivity.
  - intros x Hx. apply memb_In in Hx. rewrite app_nil_r in Hx. apply in_rev in Hx.
    apply lookup_updates; auto.
    + apply wf_fields_ids in W1. tauto.
    + eapply (dom_app_l pre (FCons id t k post)). apply dom_mk_env, default_fields_length.
Qed.

Lemma kind_refused c pre id id' t k k' post post' bs vs rest :
  wf (f_app pre (FCons id t k post)) = true -> wf (f_app pre (FCons id' t k' post')) = true ->
  Forall byte_ok bs -> (forall v, has_ty t v -> check k v = CTrue -> check k' v = CFalse) ->
  rmem (struct_cast c (f_app pre (FCons id t k post))) bs = (Ok vs, rest) ->
  exists vp v vq rest', vs = vp ++ v :: vq /\ length vp = f_len pre /\
    bs = enc_fields (c_wire c) pre vp ++ enc_ty (c_wire c) t v ++ rest' /\
    rmem (struct_cast c (f_app pre (FCons id' t k' post'))) bs = (Err (ValidationFailure, id'), rest').
Proof.
  intros W W' B A H. pose proof (read_sound c _ bs vs rest W B H) as [V E].
  pose proof (struct_has c _ _ V) as Hv.
  pose proof (Safety.has_fields_length _ _ Hv) as L.
  assert (Lf : f_len (f_app pre (FCons id t k post)) = (f_len pre + S (f_len post))%nat).
  { clear. induction pre as [|i u l pre IH]; cbn in *; [reflexivity|]. rewrite IH. reflexivity. }
  rewrite Lf in L.
  rewrite <- (firstn_skipn (f_len pre) vs) in *.
  assert (Lp : length (firstn (f_len pre) vs) = f_len pre).
  { rewrite app_length in L. rewrite firstn_length in *. rewrite skipn_length in L. lia. }
  set (vp := firstn (f_len pre) vs) in *. set (tl := skipn (f_len pre) vs) in *. clearbody vp tl. clear vs.
  rewrite app_length, Lp in L. destruct tl as [|v vq]; [cbn in L; lia|].
  pose proof (older_read c pre (FCons id t k post) bs vp (v :: vq) rest W B Lp H) as P.
  destruct (rmem_field c pre id t k post bs vp _ W P Lp) as [e2 F].
  destruct (rmem_field c pre id' t k' post' bs vp _ W' P Lp) as [e2' F'].
  pose proof H as H0. rewrite H in F. clear H. cbn [enc_fields] in P, F, F'.
  set (r1 := (enc_ty (c_wire c) t v ++ enc_fields (c_wire c) post vq) ++ rest) in *.
  rewrite rmem_bind in F, F'.
  destruct (rmem (read_ty c (mk_env pre vp) t) r1) as [[x|r0| | |] r2] eqn:R; try discriminate.
  unfold rcheck in F, F'. destruct (check k x) eqn:K; try discriminate. cbn [rmem] in F.
  destruct (rmem (read_fields c (update e2 id x) post) r2) as [[ws|r0| | |] r3] eqn:Q; try discriminate.
  injection F as F F3. apply app_inv_head in F. injection F as <- F4. clear Q F3 F4.
  assert (T : has_ty t v).
  { apply has_fields_app' in Hv; auto. destruct Hv as [_ Hv]. cbn in Hv. tauto. }
  rewrite (A v T K) in F'. cbn [rmem] in F'.
  assert (As : f_app pre (FCons id t k post) = f_app (f_app pre (FCons id t k FNil)) post).
  { clear. induction pre as [|i u l pre IH]; cbn; [reflexivity|]. rewrite IH. reflexivity. }
  assert (W2 : wf (f_app pre (FCons id t k FNil)) = true).
  { rewrite As in W. apply wf_app_l in W. exact W. }
  assert (G : r2 = enc_fields (c_wire c) post vq ++ rest).
  { destruct (rmem_field c pre id t k FNil bs vp _ W2 P Lp) as [e3 G].
    rewrite rmem_bind, R in G. unfold rcheck in G. rewrite K in G. cbn [rmem read_fields] in G.
    assert (Z : rmem (struct_cast c (f_app pre (FCons id t k FNil))) bs =
      (Ok (vp ++ [v]), enc_fields (c_wire c) post vq ++ rest)).
    { apply older_read; [rewrite <- As; exact W | exact B | | ].
      - rewrite app_length, Lp. cbn. clear. induction pre as [|i u l pre IH]; cbn in *; [reflexivity|]. rewrite <- IH. reflexivity.
      - rewrite <- As, <- app_assoc. exact H0. }
    rewrite Z in G. injection G as ->. reflexivity. }
  exists vp, v, vq, r2. split; [reflexivity|]. split; [exact Lp|]. split; [|exact F'].
  rewrite G. rewrite E. rewrite LawMore.enc_split by auto. cbn [enc_fields]. rewrite <- !app_assoc. reflexivity.
Qed.

Lemma allowed_check k s l z : allowed k = Some (s, l) -> sc_in s z = true ->
  check k (VZ z) = cres_of_bool (existsb (fun a => z =? a) l).
Proof.
  destruct k as [|[] ? ?| | | | | | |]; cbn [allowed]; try discriminate; intros [= <- <-] H;
    cbn [check as_int]; rewrite conv_id by auto; cbn [do_cmp existsb]; rewrite ?orb_false_r; reflexivity.
Qed.

Lemma listed_apart ft n s s' k k' l l' v : allowed k = Some (s, l) -> allowed k' = Some (s', l') ->
  (forall z, sc_in ft z = true -> sc_in s z = true) -> (forall z, sc_in ft z = true -> sc_in s' z = true) ->
  (forall z, In z l -> ~ In z l') -> has_ty (FFixed (TScalar ft) n) v ->
  check k v = CTrue -> check k' v = CFalse.
Proof.
  intros K K' S S' N H. destruct v; cbn in H; try contradiction.
  rewrite (allowed_check k s l), (allowed_check k' s' l') by auto.
  destruct (existsb _ l) eqn:E; [|discriminate]. intros _. apply existsb_exists in E. destruct E as (a & I & E).
  apply Z.eqb_eq in E. subst a. destruct (existsb _ l') eqn:E'; [|reflexivity].
  apply existsb_exists in E'. destruct E' as (b & I' & E'). apply Z.eqb_eq in E'. subst b. destruct (N _ I I').
Qed.

Lemma str_apart x y a b v : cstr a = Some x -> cstr b = Some y -> x <> y ->
  check (CStr false a) v = CTrue -> check (CStr false b) v = CFalse.
Proof.
  intros A B N. cbn [check]. destruct v; try discriminate.
  destruct (chars_of _) as [zs|]; [|discriminate]. unfold fixed_string_eq. rewrite A, B.
  destruct (cstr zs) as [w|]; [|discriminate].
  destruct (zlist_eqb w x) eqn:E; [|discriminate]. apply zlist_eqb_eq in E. subst w.
  destruct (zlist_eqb x y) eqn:E'; [|reflexivity]. apply zlist_eqb_eq in E'. contradiction.
Qed.

Section Tried.
Variables (c : cfg) (pre : fields) (t : fty) (bs : list Z).
Hypothesis B : Forall byte_ok bs.

Definition reads (kd : kind_of_msg) := match rmem (struct_cast c (kind_fields pre t kd)) bs with (Ok _, _) => true | _ => false end.

Lemma apart_reads a b : wf (kind_fields pre t a) = true -> wf (kind_fields pre t b) = true ->
  tells_apart t a b -> reads a = true -> reads b = false.
Proof.
  intros Wa Wb A R. destruct a as [[i k] p], b as [[j l] q]. unfold reads, kind_fields in *.
  destruct (rmem (struct_cast c (f_app pre (FCons i t k p))) bs) as [[vs|e| | |] r] eqn:E; try discriminate.
  destruct (kind_refused c pre i j t k l p q bs vs r Wa Wb B) as (vp&v&vq&rest'&_&_&_&F); auto.
  - intros v Hv. apply (A v Hv).
  - rewrite F. reflexivity.
Qed.

Lemma apart_sym a b : tells_apart t a b -> tells_apart t b a.
Proof. intros A v Hv. destruct (A v Hv). auto. Qed.

Lemma pairs_perm ks ks' : Permutation ks ks' ->
  ForallOrdPairs (tells_apart t) ks -> ForallOrdPairs (tells_apart t) ks'.
Proof.
  induction 1 as [|x l l' P IH|x y l|l l' l'' P1 IH1 P2 IH2]; intros F; auto.
  - inversion F as [|? ? F1 F2]; subst. constructor; auto. rewrite <- P. exact F1.
  - inversion F as [|? ? F1 F2]; subst. inversion F2 as [|? ? F3 F4]; subst.
    inversion F1 as [|? ? F5 F6]; subst.
    constructor; [constructor; [apply apart_sym; assumption | assumption] | constructor; assumption].
Qed.

Lemma tried_perm ks ks' : Permutation ks ks' ->
  Forall (fun kd => wf (kind_fields pre t kd) = true) ks -> ForallOrdPairs (tells_apart t) ks ->
  tried c pre t ks bs = tried c pre t ks' bs.
Proof.
  induction 1 as [|x l l' P IH|x y l|l l' l'' P1 IH1 P2 IH2]; intros W F; auto.
  - inversion F; inversion W; subst. cbn. rewrite IH; auto.
  - inversion F as [|? ? F1 F2]; subst. inversion F1 as [|? ? A _]; subst.
    inversion W as [|? ? Wy W1]; subst. inversion W1 as [|? ? Wx _]; subst.
    pose proof (apart_reads y x Wy Wx A) as R. unfold reads in R. cbn [tried].
    destruct (rmem (struct_cast c (kind_fields pre t y)) bs) as [[vs|e| | |] r]; auto.
    specialize (R eq_refl).
    destruct (rmem (struct_cast c (kind_fields pre t x)) bs) as [[ws|e| | |] r']; auto. discriminate.
  - rewrite IH1 by auto. apply IH2; [rewrite <- P1; exact W | eapply pairs_perm; eauto].
Qed.
End Tried.
