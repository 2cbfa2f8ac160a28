(** Where a write fails, and what the stream holds then. *)
From Coq Require Import ZifyBool ZifyNat.
From Verif Require Import Read Write WSpec Typing PropDefs BytesFacts ProgFacts ReadFacts ReadMore Safety.
From Verif Require Import WriteFacts WriteMain.

(** ** Splitting a struct at a field *)

Lemma wbind_assoc {E A B C} (p : wprog E A) (f : A -> wprog E B) (g : B -> wprog E C) :
  wbind (wbind p f) g = wbind p (fun a => wbind (f a) g).
Proof. induction p; simpl; auto. rewrite IHp. auto. Qed.

Lemma has_fields_app pre gs : forall vs, has_fields (f_app pre gs) vs ->
  exists vpre ws, vs = vpre ++ ws /\ length vpre = f_len pre /\ has_fields pre vpre /\ has_fields gs ws.
Proof.
  induction pre; intros vs H.
  - exists [], vs. simpl. auto.
  - destruct vs as [|v vs]; cbn [f_app has_fields] in H; [tauto|]. destruct H as [H1 H2].
    destruct (IHpre _ H2) as (vpre & ws & -> & L & V1 & V2).
    exists (v :: vpre), ws. simpl. auto.
Qed.

Lemma app_len_inj {A} (a b c d : list A) : a ++ b = c ++ d -> length a = length c -> a = c /\ b = d.
Proof.
  revert c. induction a; intros [|x c]; simpl; intros H L; try discriminate; auto.
  inversion H. destruct (IHa c); auto. subst; auto.
Qed.

Lemma has_fields_app' pre gs vpre ws : length vpre = f_len pre ->
  has_fields (f_app pre gs) (vpre ++ ws) -> has_fields pre vpre /\ has_fields gs ws.
Proof.
  intros L H. destruct (has_fields_app _ _ _ H) as (a & b & E & L' & V1 & V2).
  apply app_len_inj in E; [|congruence]. destruct E; subst. auto.
Qed.

Lemma emit_fields_app c cl pre gs ws : forall vpre, length vpre = f_len pre ->
  emit_fields c cl (f_app pre gs) (vpre ++ ws) = emit_fields c cl pre vpre ++ emit_fields c cl gs ws.
Proof.
  induction pre; intros [|v vpre] L; simpl in *; try discriminate; auto.
  f_equal. auto.
Qed.

Lemma emit_fields_length c cl fs : forall vs, length vs = f_len fs ->
  length (emit_fields c cl fs vs) = f_len fs.
Proof. induction fs; intros [|v vs] L; simpl in *; try discriminate; auto. Qed.

Definition field_prog (c : cfg) (fs : fields) (vs : list val) (id : ident) (t : fty) (k : constr)
  (v : val) : wprog reason unit :=
  wbind (if is_derived fs id || is_frozen t k then WRet tt else wcheck k v)
        (fun _ => write_ty c fs vs id true k t v).

Lemma write_fields_app c fs vs pre gs ws : forall vpre, length vpre = f_len pre ->
  write_fields c fs vs (f_app pre gs) (vpre ++ ws) =
  wbind (write_fields c fs vs pre vpre) (fun _ => write_fields c fs vs gs ws).
Proof.
  induction pre; intros [|v vpre] L; cbn [f_app app f_len length] in *; try discriminate; auto.
  cbn [write_fields]. rewrite IHpre by lia. rewrite wbind_assoc. auto.
Qed.

Lemma members_app GA pre gs : members GA (f_app pre gs) -> members GA pre /\ members GA gs.
Proof. induction pre; simpl; tauto. Qed.

Lemma tafter_sub gs : forall G fs', (forall id, In id (f_ids gs) -> tlookup G id = None) ->
  fs' = tafter G gs -> sub G fs'.
Proof.
  intros G fs' Hn -> id t Hl. rewrite tlookup_tafter_notin; auto.
  intros Hin. rewrite (Hn _ Hin) in Hl. discriminate.
Qed.

Lemma tafter_app pre gs : forall G, tafter G (f_app pre gs) = tafter (tafter G pre) gs.
Proof. induction pre; intros G; simpl; auto. Qed.

Lemma tlookup_tafter_none pre : forall G id, ~ In id (f_ids pre) -> tlookup G id = None ->
  tlookup (tafter G pre) id = None.
Proof. intros G id Hn Hg. rewrite tlookup_tafter_notin; auto. Qed.

Lemma f_len_ids fs : length (f_ids fs) = f_len fs.
Proof. induction fs; simpl; auto. Qed.

Section Split.
Variables (c : cfg) (fs : fields) (vs : list val) (pre : fields) (id : ident) (t : fty)
  (k : constr) (v : val).
Hypothesis Hwf : wf fs = true.
Hypothesis Hty : typed fs = true.
Hypothesis Hhas : has_fields fs vs.
Hypothesis Hat : field_at fs vs pre id t k v.

Lemma at_facts : exists post vpre vpost,
  fs = f_app pre (FCons id t k post) /\ vs = vpre ++ v :: vpost /\ length vpre = f_len pre /\
  has_fields pre vpre /\ has_ty t v /\ has_fields post vpost /\
  wf_fields [] pre = true /\ wf_ty (rev (f_ids pre)) t = true /\
  wf_fields (id :: rev (f_ids pre)) post = true /\
  typed_fields [] pre = true /\ typed_ty (tafter [] pre) t = true /\ constr_ok t k = true /\
  typed_fields ((id, t) :: tafter [] pre) post = true /\
  wctx fs vs /\ members (tafter [] fs) fs /\ sub (tafter [] pre) (tafter [] fs) /\
  tlookup (tafter [] fs) id = Some t.
Proof.
  destruct Hat as (post & vpre & vpost & E1 & E2 & L).
  exists post, vpre, vpost. split; [auto|]. split; [auto|]. split; [auto|].
  destruct (wctx_intro fs vs Hwf Hty Hhas) as [Hx Hm].
  destruct (wf_fields_ids _ _ Hwf) as [Hn _].
  pose proof Hhas as Hh. pose proof Hwf as Hw. pose proof Hty as Ht. pose proof Hm as Hm'.
  unfold wf, typed in *.
  rewrite E1, E2 in Hh. apply has_fields_app' in Hh; auto. destruct Hh as [V1 [V2 V3]].
  rewrite E1 in Hw. apply wf_fields_app in Hw. destruct Hw as [W1 W2].
  rewrite app_nil_r in W2. cbn [wf_fields] in W2.
  apply andb_true_iff in W2. destruct W2 as [W2 W3]. apply andb_true_iff in W2. destruct W2 as [_ W2].
  rewrite E1 in Ht. rewrite typed_fields_app in Ht. apply andb_true_iff in Ht. destruct Ht as [T1 T2].
  cbn [typed_fields] in T2.
  apply andb_true_iff in T2. destruct T2 as [T2 T3]. apply andb_true_iff in T2. destruct T2 as [T2 T4].
  rewrite E1 in Hm' at 2. apply members_app in Hm'. destruct Hm' as [_ [M _]].
  repeat (split; [assumption|]). split; [|assumption].
  rewrite E1, tafter_app. eapply tafter_sub; [|reflexivity].
  - rewrite E1, f_ids_app in Hn. intros x Hx'.
    assert (~ In x (f_ids pre)).
    { clear - Hn Hx'. induction (f_ids pre); [auto|]. inversion Hn; subst.
      intros [->|Hin]; [apply H1; apply in_or_app; auto|]. apply IHl; auto. }
    apply tlookup_tafter_none; auto.
Qed.

Lemma emitted_split : exists post vpre vpost,
  fs = f_app pre (FCons id t k post) /\ vs = vpre ++ v :: vpost /\ length vpre = f_len pre /\
  emitted c fs vs =
    emit_fields c (fun id => hd_error (claims c id fs vs)) pre vpre ++
    slot (hd_error (claims c id fs vs)) k t (emit_ty c t v) ::
    emit_fields c (fun id => hd_error (claims c id fs vs)) post vpost.
Proof.
  destruct Hat as (post & vpre & vpost & E1 & E2 & L).
  exists post, vpre, vpost. split; [auto|]. split; [auto|]. split; [auto|].
  unfold emitted. set (cl := fun id => hd_error (claims c id fs vs)).
  assert (Hcl : cl id = hd_error (claims c id fs vs)) by reflexivity. clearbody cl.
  rewrite E1, E2, emit_fields_app by auto. simpl emit_fields.
  rewrite <- E1, <- E2, Hcl. auto.
Qed.

(** The program, cut at the field. *)
Lemma split_cast (ub : Prop) : (plain_fields fs = true \/ ub) -> exists post vpre vpost,
  fs = f_app pre (FCons id t k post) /\ vs = vpre ++ v :: vpost /\ length vpre = f_len pre /\
  stream_cast c fs vs =
    wbind (write_fields c fs vs pre vpre) (fun _ =>
      wbind (wmaperr (fun r => (r, id)) (field_prog c fs vs id t k v)) (fun _ =>
        write_fields c fs vs post vpost)) /\
  good ub false (bytes_before c pre (emitted c fs vs)) (wmem (write_fields c fs vs pre vpre)) /\
  good ub (atomic t) (enc_ty (c_wire c) t (slot (hd_error (claims c id fs vs)) k t (emit_ty c t v)))
    (wmem (field_prog c fs vs id t k v)) /\
  good ub false (enc_fields (c_wire c) post (skipn (S (f_len pre)) (emitted c fs vs)))
    (wmem (write_fields c fs vs post vpost)).
Proof.
  intros Hp.
  destruct at_facts as (post & vpre & vpost & E1 & E2 & L & V1 & V2 & V3 & W1 & W2 & W3 & T1 & T2 & T4 & T3 & Hx & Hm & Hs & Hl).
  exists post, vpre, vpost. split; [auto|]. split; [auto|]. split; [auto|].
  destruct emitted_split as (post' & vpre' & vpost' & E1' & E2' & L' & Hem).
  rewrite E2' in E2. apply app_len_inj in E2; [|congruence]. destruct E2 as [-> E2].
  inversion E2; subst vpost'. clear E2. rename E2' into E2.
  assert (post' = post) as ->.
  { rewrite E1' in E1. clear - E1. induction pre; simpl in E1; inversion E1; auto. }
  clear E1' L'.
  assert (Hlen : length (emit_fields c (fun id0 => hd_error (claims c id0 fs vs)) pre vpre) = f_len pre)
    by (apply emit_fields_length; auto).
  assert (B1 : bytes_before c pre (emitted c fs vs) = enc_fields (c_wire c) pre
            (emit_fields c (fun id0 => hd_error (claims c id0 fs vs)) pre vpre)).
  { unfold bytes_before. rewrite Hem. rewrite <- Hlen, firstn_app, Nat.sub_diag, firstn_all, app_nil_r. auto. }
  assert (B2 : skipn (S (f_len pre)) (emitted c fs vs) =
            emit_fields c (fun id0 => hd_error (claims c id0 fs vs)) post vpost).
  { rewrite Hem, <- Hlen. rewrite skipn_app.
    rewrite (skipn_all2 (n := S _)) by lia.
    replace (S (length (emit_fields c (fun id0 => hd_error (claims c id0 fs vs)) pre vpre)) -
             length (emit_fields c (fun id0 => hd_error (claims c id0 fs vs)) pre vpre))%nat with 1%nat by lia.
    auto. }
  assert (Hi : incl (f_ids pre) (f_ids fs)) by (rewrite E1, f_ids_app; apply incl_appl, incl_refl).
  assert (Hir : incl (rev (f_ids pre)) (f_ids fs)) by (intros x Hx'; apply Hi; apply in_rev; auto).
  assert (Hid : In id (f_ids fs)) by (rewrite E1, f_ids_app; apply in_or_app; right; left; auto).
  assert (Hi' : incl (f_ids post) (f_ids fs)) by
    (rewrite E1, f_ids_app; apply incl_appr; simpl; apply incl_tl, incl_refl).
  assert (Hmm : members (tafter [] fs) pre /\ members (tafter [] fs) post).
  { rewrite E1 in Hm at 2. apply members_app in Hm. simpl in Hm. tauto. }
  assert (Hp3 : (plain_fields pre = true \/ ub) /\ (plain_ty t = true \/ ub) /\ (tame t k = true \/ ub) /\
                (plain_fields post = true \/ ub)).
  { destruct Hp as [Hp|Hp]; [|tauto]. rewrite E1 in Hp.
    assert (plain_fields pre = true /\ plain_fields (FCons id t k post) = true).
    { clear - Hp. induction pre; simpl in *; auto. rewrite !andb_true_iff in *.
      destruct Hp as [Hp1 Hp2]. destruct (IHf Hp2). tauto. }
    simpl in H. rewrite !andb_true_iff in H. tauto. }
  destruct writer_emits as (Wt & Wf & _).
  split; [|split; [|split]].
  - unfold stream_cast. rewrite E1 at 2. rewrite E2 at 2. rewrite write_fields_app by auto. auto.
  - rewrite B1. eapply (Wf pre c ub fs vs vpre [] []); eauto; try tauto.
    + intros x [].
    + intros x y Hf. discriminate.
  - unfold field_prog. apply good_check.
    + destruct (is_derived fs id || is_frozen t k); [unfold good; simpl; auto|].
      eapply good_wcheck; eauto. tauto.
    + apply (Wt t c ub fs vs id true k v (tafter [] pre) (rev (f_ids pre))); auto; try tauto; try discriminate.
      intros H. destruct (x_scalar _ _ Hx _ H) as (s & n & E). rewrite Hl in E. inversion E; eauto.
  - rewrite B2. eapply (Wf post c ub fs vs vpost ((id, t) :: tafter [] pre) (id :: rev (f_ids pre))); eauto; try tauto.
    + intros x [->|Hin]; auto.
    + intros i u. simpl. destruct (String.eqb_spec id i); auto. intros E; inversion E; subst; auto.
Qed.

End Split.

(** ** Which errors a write can give *)

Definition w_err (r : reason) : Prop :=
  r = ValidationFailure \/ r = TypeDeductionFailure \/ r = FoundContradictingLength.
Definition w_refused (r : reason) : Prop := r = BufferExhaustion.
Notation wok := (wall w_err w_refused).

Lemma wok_put bs : wok (put bs).
Proof. simpl. unfold w_refused. auto. Qed.

Lemma wok_put_prefix bs n : wok (put_prefix bs n).
Proof. unfold put_prefix. destruct (Nat.ltb _ _); simpl; unfold w_refused; auto. Qed.

Lemma wok_const c t n v : wok (write_const c t n v).
Proof.
  unfold write_const. destruct (is_host_order c).
  - destruct (store _ t v); [apply wok_put_prefix|simpl; auto].
  - destruct t.
    + destruct v; simpl; auto. apply wok_put_prefix.
    + destruct (foreign_chunks _ _ v); [|simpl; auto]. apply wall_wfor, wok_put.
    + destruct (store _ _ v); [apply wok_put_prefix|simpl; auto].
    + destruct v; simpl; auto. destruct (Nat.eqb _ _); [apply wok_put_prefix|simpl; auto].
Qed.

Lemma wok_var c t l : wok (write_var c t l).
Proof.
  unfold write_var. destruct (is_host_order c); destruct (sequence _); try (simpl; auto; fail).
  - destruct (c_cx c); [|apply wok_put]. apply wall_wfor, wok_put.
  - apply wall_wfor, wok_put.
Qed.

Lemma wok_check k v : wok (wcheck k v).
Proof. unfold wcheck. destruct (check k v); simpl; unfold w_err; auto. Qed.

Lemma wok_verify c fs vs id t n v : wok (verify_then_write c fs vs id t n v).
Proof.
  unfold verify_then_write. destruct (has_cond_obligation fs id); [|apply wok_const].
  destruct v; simpl; auto. destruct (verify_cond _ _ _ _ _) as [[|]|]; simpl; auto.
  - apply wok_const.
  - unfold w_err; auto.
Qed.

Lemma wok_fixed c fs vs id mem k t n v : wok (write_fixed c fs vs id mem k t n v).
Proof.
  unfold write_fixed. destruct (is_derived fs id).
  - unfold derive_value. destruct t; simpl; auto.
    destruct (derive_fold _ _ _ _ _) as [d|]; simpl; auto.
    destruct (negb (d_agreed d)); simpl; [unfold w_err; auto|].
    destruct (negb _); simpl; [unfold w_err; auto|].
    apply wall_bind; [apply wok_check|intros; apply wok_verify].
  - destruct (mem && _); [|apply wok_verify].
    destruct (frozen_value _ _); [apply wok_verify|simpl; auto].
Qed.

Lemma wok_len c e l z : wok (verify_len c e l z).
Proof.
  unfold verify_len. destruct l; simpl; auto. destruct (lookups e ids); simpl; auto.
  destruct (_ =? z); simpl; unfold w_err; auto.
Qed.

Lemma wall_impl {E A} (PE PF PE' PF' : E -> Prop) (p : wprog E A) :
  (forall e, PE e -> PE' e) -> (forall e, PF e -> PF' e) -> wall PE PF p -> wall PE' PF' p.
Proof. intros H1 H2. induction p; simpl; intuition. Qed.

Notation wok' ids := (wall (fun e => w_err (fst e) /\ In (snd e) ids)
                           (fun e => w_refused (fst e) /\ In (snd e) ids)).

Lemma write_wok c :
  (forall t fs vs id mem k v, wok (write_ty c fs vs id mem k t v)) /\
  (forall gs fs vs ws, wok' (f_ids gs) (write_fields c fs vs gs ws)) /\
  (forall al fs vs id i v, wok (write_alts c fs vs id al i v)).
Proof.
  apply schema_mutind.
  - intros. apply wok_fixed.
  - intros elt l b fs vs id mem k v. simpl. destruct v; simpl; auto.
    apply wall_bind; [apply wok_len|intros; apply wok_var].
  - intros gs IH fs vs id mem k v. simpl. destruct v; simpl; auto. apply wall_maperr.
    eapply wall_impl; [| |apply IH]; cbv beta; tauto.
  - intros n gs IH fs vs id mem k v. simpl. destruct v; simpl; auto.
    destruct (Nat.eqb _ _); simpl; auto. apply wall_wfor. intros []; simpl; auto.
    apply wall_maperr. eapply wall_impl; [| |apply IH]; cbv beta; tauto.
  - intros gs IH recsz l b fs vs id mem k v. simpl. destruct v; simpl; auto.
    apply wall_bind; [apply wok_len|intros _]. apply wall_wfor. intros []; simpl; auto.
    apply wall_maperr. eapply wall_impl; [| |apply IH]; cbv beta; tauto.
  - intros b IH p ids fs vs id mem k v. cbn [write_ty]. destruct (lookups _ ids); simpl; auto.
    destruct (p l), v; simpl; auto; unfold w_err; auto.
  - intros g al IH fs vs id mem k v. cbn [write_ty]. destruct v; simpl; auto.
    destruct g; auto; (destruct (deduce_type _ _) as [[j|]|];
      [destruct (Nat.eqb j i); auto|..]; simpl; unfold w_err; auto).
  - intros fs vs [|]; simpl; auto.
  - intros id t IHt k gs IHgs fs vs [|w ws]; cbn [write_fields]; [simpl; auto|].
    apply wall_bind.
    + apply wall_maperr. cbn [fst snd f_ids]. eapply wall_impl with (PE := w_err) (PF := w_refused);
        try (intros; split; auto; left; auto).
      apply wall_bind; [destruct (_ || _); [simpl; auto|apply wok_check]|intros; apply IHt].
    + intros _. eapply wall_impl; [| |apply IHgs]; simpl; tauto.
  - simpl; auto.
  - intros t IHt k al IHal fs vs id i v. simpl. destruct i; auto.
    apply wall_bind; [apply wok_check|intros; apply IHt].
Qed.

Lemma cast_wok c fs vs : wok' (f_ids fs) (stream_cast c fs vs).
Proof. apply write_wok. Qed.

Lemma wmem_err {E A} (PE PF : E -> Prop) (p : wprog E A) : wall PE PF p ->
  forall e out, wmem p = (Err e, out) -> PE e.
Proof.
  induction p; simpl; intros Hp e' out H; try discriminate.
  - inversion H; subst; auto.
  - destruct Hp as [_ Hp]. destruct (wmem p) as [o out'] eqn:E2. inversion H; subst. eauto.
Qed.

(** ** A field that fails *)

Lemma field_fails c fs vs pre id t k v r part : wf fs = true -> typed fs = true ->
  has_fields fs vs -> field_at fs vs pre id t k v ->
  wmem (field_prog c fs vs id t k v) = (Err r, part) -> fails_with c fs vs pre id r part.
Proof.
  intros Hw Ht Hv Hat Hf.
  destruct (at_facts fs vs pre id t k v Hw Ht Hv Hat)
    as (post & vpre & vpost & E1 & E2 & L & V1 & V2 & V3 & W1 & W2 & W3 & T1 & T2 & T4 & T3 & Hx & Hm & Hs & Hl).
  destruct (split_cast c fs vs pre id t k v Hw Ht Hv Hat (plain_fields pre = false \/ plain_fields fs = false))
    as (post' & vpre' & vpost' & E1' & E2' & L' & Hc & G1 & _).
  { destruct (plain_fields fs); auto. }
  assert (vpre' = vpre) as -> by
    (rewrite E2' in E2; apply app_len_inj in E2; [tauto|congruence]).
  assert (G1' : good (plain_fields pre = false) false (bytes_before c pre (emitted c fs vs))
                  (wmem (write_fields c fs vs pre vpre))).
  { clear G1 Hc. destruct (emitted_split c fs vs pre id t k v Hat) as (p2 & v2 & v3 & _ & E3 & L3 & Hem).
    assert (v2 = vpre) as -> by
      (rewrite E3 in E2; apply app_len_inj in E2; [tauto|congruence]).
    assert (Hlen : length (emit_fields c (fun id0 => hd_error (claims c id0 fs vs)) pre vpre) = f_len pre)
      by (apply emit_fields_length; auto).
    unfold bytes_before. rewrite Hem. rewrite <- Hlen, firstn_app, Nat.sub_diag, firstn_all, app_nil_r.
    destruct writer_emits as (_ & Wf & _). eapply (Wf pre c _ fs vs vpre [] []); eauto.
    - intros x [].
    - rewrite E1, f_ids_app; apply incl_appl, incl_refl.
    - intros x y Hf'. discriminate.
    - rewrite E1 in Hm at 2. apply members_app in Hm. tauto.
    - destruct (plain_fields pre); auto. }
  unfold fails_with. rewrite Hc. rewrite wmem_bind. unfold good in G1'.
  destruct (write_wok c) as (_ & Hwf' & _). specialize (Hwf' pre fs vs vpre).
  destruct (wmem (write_fields c fs vs pre vpre)) as [[[]|[r' id']| | |] o1] eqn:Ep; simpl in G1'; try tauto.
  - subst o1. rewrite wmem_bind, wmem_maperr, Hf. auto.
  - left. apply (wmem_err _ _ _ Hwf' _ _ Ep).
Qed.

(** ** Any output stream *)

Lemma wrun_bind (S : ostream) {E A B} (p : wprog E A) (f : A -> wprog E B) : forall s,
  wrun S (wbind p f) s =
  match wrun S p s with
  | (Ok a, s1, ch1) => match wrun S (f a) s1 with (o, s2, ch2) => (o, s2, ch1 ++ ch2) end
  | (Err e, s1, ch1) => (Err e, s1, ch1)
  | (UB, s1, ch1) => (UB, s1, ch1)
  | (Stuck, s1, ch1) => (Stuck, s1, ch1)
  | (Throw, s1, ch1) => (Throw, s1, ch1)
  end.
Proof.
  induction p; intros s'; simpl; auto.
  - destruct (wrun S (f a) s') as [[? ?] ?]. auto.
  - destruct (o_write S s' bs) as [[|] s1]; auto. rewrite IHp.
    destruct (wrun S p s1) as [[[a|e'| | |] s2] ch]; auto.
    destruct (wrun S (f a) s2) as [[? ?] ?]. auto.
Qed.

Lemma wrun_maperr (S : ostream) {E E' A} (g : E -> E') (p : wprog E A) : forall s,
  wrun S (wmaperr g p) s =
  match wrun S p s with
  | (Ok a, s1, ch) => (Ok a, s1, ch)
  | (Err e, s1, ch) => (Err (g e), s1, ch)
  | (UB, s1, ch) => (UB, s1, ch)
  | (Stuck, s1, ch) => (Stuck, s1, ch)
  | (Throw, s1, ch) => (Throw, s1, ch)
  end.
Proof.
  induction p; intros s'; simpl; auto.
  destruct (o_write S s' bs) as [[|] s1]; auto. rewrite IHp.
  destruct (wrun S p s1) as [[[a|e'| | |] s2] ch]; auto.
Qed.

Lemma good_err {E A} ub a enc (e : E) out : good (A := A) ub a enc (Err e, out) ->
  exists tail, enc = out ++ tail.
Proof. intros [H _]. auto. Qed.

(** Something in front of what fails. *)
Lemma locate c fs vs S : wf fs = true -> typed fs = true -> has_fields fs vs ->
  forall gs ws pre vpre, fs = f_app pre gs -> vs = vpre ++ ws -> length vpre = f_len pre ->
  forall s r id s' ch, wrun S (write_fields c fs vs gs ws) s = (Err (r, id), s', ch) ->
  exists mid t k post v ch1 ch2 tail,
    gs = f_app mid (FCons id t k post) /\ field_at fs vs (f_app pre mid) id t k v /\
    ch = ch1 ++ ch2 /\ (forall b, ~ In (b, false) ch1) /\
    bytes_before c pre (emitted c fs vs) ++ concat (map fst ch1) =
      bytes_before c (f_app pre mid) (emitted c fs vs) /\
    enc_ty (c_wire c) t (nth (f_len pre + f_len mid) (emitted c fs vs) VNone) = concat (map fst ch2) ++ tail /\
    (atomic t = true -> (forall b, ~ In (b, false) ch2) -> concat (map fst ch2) = []).
Proof.
  intros Hw Ht Hv gs. induction gs; intros ws pre vpre E1 E2 L s r id' s' ch Hr.
  - destruct ws; simpl in Hr; inversion Hr.
  - destruct ws as [|w ws]; [simpl in Hr; inversion Hr|].
    assert (Hat : field_at fs vs pre id t c0 w) by (exists gs, vpre, ws; auto).
    destruct (split_cast c fs vs pre id t c0 w Hw Ht Hv Hat True (or_intror I))
      as (post & vpre' & vpost & E1' & E2' & L' & Hc & G1 & G2 & G3).
    destruct (emitted_split c fs vs pre id t c0 w Hat) as (p2 & v2 & v3 & _ & E3 & L3 & Hem).
    assert (Hlen : length (emit_fields c (fun id0 => hd_error (claims c id0 fs vs)) pre v2) = f_len pre)
      by (apply emit_fields_length; auto).
    assert (Hnth : nth (f_len pre) (emitted c fs vs) VNone =
                   slot (hd_error (claims c id fs vs)) c0 t (emit_ty c t w)).
    { rewrite Hem, <- Hlen. rewrite app_nth2 by lia. rewrite Nat.sub_diag. auto. }
    assert (Hbb : bytes_before c (f_app pre (FCons id t c0 FNil)) (emitted c fs vs) =
                  bytes_before c pre (emitted c fs vs) ++
                  enc_ty (c_wire c) t (nth (f_len pre) (emitted c fs vs) VNone)).
    { rewrite Hnth. clear - Hem Hlen. unfold bytes_before. rewrite Hem. revert Hlen.
      generalize (emit_fields c (fun id0 => hd_error (claims c id0 fs vs)) pre v2) as l.
      intros l Hl. rewrite (firstn_app (f_len pre)), <- Hl, Nat.sub_diag, firstn_all, app_nil_r.
      clear Hem. generalize (slot (hd_error (claims c id fs vs)) c0 t (emit_ty c t w)) as sv.
      generalize (emit_fields c (fun id0 => hd_error (claims c id0 fs vs)) p2 v3) as tl. intros tl sv.
      revert l Hl. induction pre; intros [|x l] Hl; simpl in Hl; try discriminate.
      - simpl. rewrite app_nil_r. auto.
      - simpl. rewrite <- app_assoc. f_equal. apply IHpre. lia. }
    cbn [write_fields] in Hr. fold (field_prog c fs vs id t c0 w) in Hr.
    rewrite wrun_bind, wrun_maperr in Hr.
    assert (Hwok : wok (field_prog c fs vs id t c0 w)).
    { apply wall_bind; [destruct (_ || _); [simpl; auto|apply wok_check]|intros; apply write_wok]. }
    destruct (wrun S (field_prog c fs vs id t c0 w) s) as [[[[]|r'| | |] s1] ch1] eqn:Ef; try discriminate Hr.
    + destruct (wrun S (write_fields c fs vs gs ws) s1) as [[o s2] ch2] eqn:Eg.
      inversion Hr; subst o s2 ch. clear Hr.
      destruct (wrun_prefix _ _ S _ Hwok _ _ _ _ Ef) as [_ [(F1 & F2 & _)|(? & ? & ? & ? & ? & F & _)]];
        [|discriminate].
      rewrite <- F2 in G2. unfold good in G2. simpl in G2.
      destruct (IHgs ws (f_app pre (FCons id t c0 FNil)) (vpre ++ [w])) with (s := s1) (r := r) (id := id') (s' := s') (ch := ch2)
        as (mid & t' & k' & post' & v' & cA & cB & tail & A1 & A2 & A3 & A4 & A5 & A6 & A7).
      * rewrite f_app_assoc. simpl. auto.
      * rewrite <- app_assoc. auto.
      * rewrite app_length. simpl. rewrite L. clear. induction pre; simpl; lia.
      * auto.
      * exists (FCons id t c0 mid), t', k', post', v', (ch1 ++ cA), cB, tail.
        rewrite f_app_assoc in A2. simpl f_app in A2.
        assert (Hfl : f_len (f_app pre (FCons id t c0 FNil)) = Datatypes.S (f_len pre))
          by (clear; induction pre; simpl; lia).
        split; [simpl; congruence|]. split; [auto|]. split; [subst; apply app_assoc|].
        split; [|split; [|split]].
        -- intros b Hin. apply in_app_or in Hin. destruct Hin as [Hin|Hin]; [eapply F1|eapply A4]; eauto.
        -- rewrite f_app_assoc in A5. simpl f_app in A5. rewrite <- A5.
           rewrite Hbb, Hnth, <- G2, map_app, concat_app, <- !app_assoc. auto.
        -- rewrite Hfl in A6. cbn [f_len]. rewrite <- plus_n_Sm. exact A6.
        -- auto.
    + inversion Hr; subst r' id' s1 ch1. clear Hr.
      assert (Hpre : exists tail, enc_ty (c_wire c) t (nth (f_len pre) (emitted c fs vs) VNone) =
                concat (map fst ch) ++ tail).
      { destruct (wrun_prefix _ _ S _ Hwok _ _ _ _ Ef) as [[tl Htl] _]. rewrite Hnth.
        unfold good in G2.
        destruct (wmem (field_prog c fs vs id t c0 w)) as [[[]|e| | |] out]; simpl in G2, Htl; try tauto.
        - exists tl. congruence.
        - destruct G2 as [[tl' ->] _]. rewrite Htl, <- app_assoc. eauto.
        - destruct G2 as (_ & [tl' ->] & _). rewrite Htl, <- app_assoc. eauto. }
      destruct Hpre as [tail Htail].
      exists FNil, t, c0, gs, w, [], ch, tail. rewrite f_app_nil. simpl f_len.
      rewrite Nat.add_0_r, app_nil_r. simpl.
      do 5 (split; [auto; fail|]). split; auto.
      intros Ha Hnr.
      destruct (wrun_prefix _ _ S _ Hwok _ _ _ _ Ef) as [_ [(F1 & F2 & _)|(ch' & b & ? & -> & _)]].
      * rewrite <- F2 in G2. unfold good in G2; simpl in G2. apply G2. auto.
      * exfalso. eapply Hnr. apply in_or_app. right. left. reflexivity.
Qed.
