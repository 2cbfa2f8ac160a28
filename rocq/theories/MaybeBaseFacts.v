(** * Proofs about optional fields over constrained bases *)
From Coq Require Import List ZArith Bool Lia String.
From Verif Require Import Read Write Spec WSpec Typing Prog ProgFacts ReadFacts WriteFacts.
From Verif Require Import ReadLemmas ReadMore Safety WriteMain WriteLoc WriteErr PropDefs Safety RUndef RUndefFacts StaticSpec RTrip RTrip2 Rewrite MaybeBase MaybeBaseSpec.
Import ListNotations.
Local Open Scope list_scope.

(** ** The relaxed schema derives and verifies the same *)
Lemma relaxed_cons id t k fs :
  relaxed (FCons id t k fs) = FCons id (relaxed_ty t) (own_constr t k) (relaxed fs).
Proof. destruct t; reflexivity. Qed.

Lemma rx_default :
  (forall t, default_ty (relaxed_ty t) = default_ty t) /\
  (forall fs, default_fields (relaxed fs) = default_fields fs) /\
  (forall al, default_alts (relaxed_alts al) = default_alts al).
Proof.
  apply schema_mutind; intros; try reflexivity; try (cbn in *; congruence).
  rewrite relaxed_cons. cbn. congruence.
Qed.

Lemma rx_mk_env fs : forall vs, mk_env (relaxed fs) vs = mk_env fs vs.
Proof.
  induction fs; intros [|v vs]; auto; rewrite relaxed_cons; cbn; auto. rewrite IHfs. reflexivity.
Qed.

Lemma rx_len_target t : len_target (relaxed_ty t) = len_target t.
Proof. destruct t; reflexivity. Qed.
Lemma rx_disc_target t : disc_target (relaxed_ty t) = disc_target t.
Proof. destruct t; reflexivity. Qed.
Lemma rx_cond_target t : cond_target (relaxed_ty t) = cond_target t.
Proof. destruct t; try reflexivity. apply rx_len_target. Qed.
Lemma rx_frozen t k : is_frozen (relaxed_ty t) k = is_frozen t k.
Proof. destruct t; reflexivity. Qed.

Lemma rx_derived fs id : is_derived (relaxed fs) id = is_derived fs id.
Proof.
  unfold is_derived. f_equal; induction fs; auto; rewrite relaxed_cons; cbn; rewrite IHfs.
  - rewrite rx_len_target. reflexivity.
  - rewrite rx_disc_target. reflexivity.
Qed.

Lemma rx_implied c id t v : implied c id (relaxed_ty t) v = implied c id t v.
Proof. unfold implied. rewrite rx_len_target, rx_disc_target. destruct t; reflexivity. Qed.

Lemma rx_derive_value c fs vs id t n :
  derive_value c (relaxed fs) vs id t n = derive_value c fs vs id t n.
Proof.
  unfold derive_value. destruct t; auto.
  replace (derive_fold c id (relaxed fs) vs (mkD 0 false true))
    with (derive_fold c id fs vs (mkD 0 false true)); auto.
  generalize (mkD 0 false true). revert vs.
  induction fs as [|i t k fs IH]; intros [|v vs] d; auto; rewrite relaxed_cons; cbn; auto.
  rewrite rx_implied. destruct (implied c id t v) as [[z|]|]; auto.
Qed.

Lemma rx_a_nth al : forall i,
  a_nth i (relaxed_alts al) = option_map (fun tk => (relaxed_ty (fst tk), snd tk)) (a_nth i al).
Proof. induction al; intros [|i]; cbn; auto. Qed.

Lemma rx_has_cond fs id : has_cond_obligation (relaxed fs) id = has_cond_obligation fs id.
Proof.
  assert (AT : forall al, alts_target (relaxed_alts al) id = alts_target al id).
  { induction al; cbn; auto. rewrite rx_len_target, IHal. reflexivity. }
  induction fs; auto. rewrite relaxed_cons. cbn. rewrite IHfs. f_equal. unfold has_cond_obligation_of.
  rewrite rx_cond_target. f_equal. destruct t; cbn; auto.
Qed.

Lemma rx_verify_cond e id w gs : forall ws,
  verify_cond e id w (relaxed gs) ws = verify_cond e id w gs ws.
Proof.
  assert (A : forall t v, cond_agrees e id w (relaxed_ty t) v = cond_agrees e id w t v).
  { intros t v. unfold cond_agrees. rewrite rx_cond_target. destruct t; auto.
    cbn [cond_target ident_is relaxed_ty]. destruct v; auto. rewrite rx_a_nth.
    destruct (a_nth i al) as [[t k]|]; cbn; auto. rewrite rx_len_target. reflexivity. }
  induction gs; intros [|v ws]; auto; rewrite relaxed_cons; cbn; auto. rewrite A, IHgs. reflexivity.
Qed.

Lemma rx_verify_then_write c fs vs id t n v :
  verify_then_write c (relaxed fs) vs id t n v = verify_then_write c fs vs id t n v.
Proof.
  unfold verify_then_write. rewrite rx_has_cond. destruct (has_cond_obligation fs id); auto.
  destruct v; auto. rewrite rx_mk_env, rx_verify_cond. reflexivity.
Qed.

Lemma rx_write_fixed c fs vs id mem k t n v :
  write_fixed c (relaxed fs) vs id mem k t n v = write_fixed c fs vs id mem k t n v.
Proof.
  unfold write_fixed. rewrite rx_derived, rx_derive_value.
  destruct (is_derived fs id).
  - destruct (derive_value _ _ _ _ _ _); auto. rewrite rx_verify_then_write. reflexivity.
  - destruct (mem && _); [destruct (frozen_value _ _)|]; auto using rx_verify_then_write.
Qed.

Lemma fixed_no_constr c fs vs id k k' t n v : is_derived fs id = false ->
  write_fixed c fs vs id false k t n v = write_fixed c fs vs id false k' t n v.
Proof. intros H. unfold write_fixed. rewrite H. reflexivity. Qed.

(** ** Reading *)
Lemma mb_read_same c :
  (forall t e, req (mb_read_ty c e t) (read_ty c e (relaxed_ty t))) /\
  (forall fs e, req (mb_read_fields c e fs) (read_fields c e (relaxed fs))) /\
  (forall al e i, req (mb_read_alts c e al i) (read_alts c e (relaxed_alts al) i)).
Proof.
  destruct rx_default as (_ & DF & _).
  assert (REC : forall fs, (forall e, req (mb_read_fields c e fs) (read_fields c e (relaxed fs))) ->
    req (rbind (rmaperr fst (mb_read_fields c (mk_env fs (default_fields fs)) fs))
          (fun vs => RRet (VRec vs)))
        (rbind (rmaperr fst (read_fields c (mk_env (relaxed fs) (default_fields (relaxed fs))) (relaxed fs)))
          (fun vs => RRet (VRec vs)))).
  { intros fs H. rewrite DF, rx_mk_env. apply req_bind; [apply req_maperr, H|]. intros; apply req_refl. }
  apply schema_mutind.
  - intros; apply req_refl.
  - intros; apply req_refl.
  - intros fs H e. cbn. apply REC, H.
  - intros n fs H e. cbn. apply req_bind; [|intros; apply req_refl]. apply req_rrep, REC, H.
  - intros fs H sz l b e. cbn. destruct (deduce_len c e l); [|constructor].
    destruct (len_allowed _ _ _); [|constructor]. constructor.
    apply req_bind; [|intros; apply req_refl]. apply req_rrep, REC, H.
  - intros b H p ids e. cbn. destruct (lookups e ids); [|constructor]. destruct (p l); [|constructor].
    apply req_bind; [apply H|]. intros; apply req_refl.
  - intros g al H e. cbn. destruct (deduce_type e g) as [[i|]|]; [|constructor|constructor].
    apply req_bind; [apply H|]. intros; apply req_refl.
  - intros; apply req_refl.
  - intros id t Ht k fs H e. rewrite relaxed_cons. cbn. apply req_bind.
    + apply req_maperr, req_bind; [apply Ht|]. intros; apply req_refl.
    + intros a. apply req_bind; [apply H|]. intros; apply req_refl.
  - intros; apply req_refl.
  - intros t Ht k al H e [|i]; cbn; [|apply H]. apply req_bind; [apply Ht|]. intros; apply req_refl.
Qed.

Lemma mb_cast_same c fs : req (mb_struct_cast c fs) (struct_cast c (relaxed fs)).
Proof.
  unfold mb_struct_cast, struct_cast. destruct rx_default as (_ & -> & _). rewrite rx_mk_env.
  apply mb_read_same.
Qed.

Lemma mb_reads_all c fs S alloc s :
  rrun S alloc (mb_struct_cast c fs) s = rrun S alloc (struct_cast c (relaxed fs)) s.
Proof. apply req_rrun, mb_cast_same. Qed.

(** ** Writing: the other program, unless a check of a payload stops it *)
Inductive wless {E A} (ok : E -> Prop) (cut ub st : Prop) : wprog E A -> wprog E A -> Prop :=
| wl_ret a : wless ok cut ub st (WRet a) (WRet a)
| wl_err e : wless ok cut ub st (WErr e) (WErr e)
| wl_ub : wless ok cut ub st WUB WUB
| wl_stuck : wless ok cut ub st WStuck WStuck
| wl_write bs e k k' : wless ok cut ub st k k' -> wless ok cut ub st (WWrite bs e k) (WWrite bs e k')
| wl_cut e q : cut -> ok e -> wless ok cut ub st (WErr e) q
| wl_undef q : ub -> wless ok cut ub st WUB q
| wl_st q : st -> wless ok cut ub st WStuck q.

Lemma wless_refl {E A} ok cut ub st (p : wprog E A) : wless ok cut ub st p p.
Proof. induction p; constructor; auto. Qed.

Lemma wless_mono {E A} (ok ok' : E -> Prop) (cut cut' ub ub' st st' : Prop) (p q : wprog E A) :
  (forall e, ok e -> ok' e) -> (cut -> cut') -> (ub -> ub') -> (st -> st') ->
  wless ok cut ub st p q -> wless ok' cut' ub' st' p q.
Proof.
  intros H1 H2 H3 H4 H. induction H; try (constructor; auto; fail).
Qed.

Lemma wless_bind {E A B} ok cut ub st (p q : wprog E A) (f g : A -> wprog E B) :
  wless ok cut ub st p q -> (forall a, wless ok cut ub st (f a) (g a)) ->
  wless ok cut ub st (wbind p f) (wbind q g).
Proof. intros H F. induction H; cbn; try (constructor; auto; fail); auto. Qed.

Lemma wless_maperr {E E' A} (ok : E -> Prop) (ok' : E' -> Prop) cut ub st (h : E -> E') (p q : wprog E A) :
  (forall e, ok e -> ok' (h e)) ->
  wless ok cut ub st p q -> wless ok' cut ub st (wmaperr h p) (wmaperr h q).
Proof. intros H F. induction F; cbn; try (constructor; auto; fail). Qed.

Lemma wless_for {E A} ok cut ub st (l : list A) (f g : A -> wprog E unit) :
  Forall (fun a => wless ok cut ub st (f a) (g a)) l -> wless ok cut ub st (wfor l f) (wfor l g).
Proof.
  intros H. induction H; cbn; [constructor|]. apply wless_bind; auto.
Qed.

Lemma wless_run {E A} (ok : E -> Prop) (cut ub st : Prop) (p q : wprog E A) :
  ~ cut -> ~ ub -> ~ st -> wless ok cut ub st p q -> forall S s, wrun S p s = wrun S q s.
Proof.
  intros H1 H2 H3 H S. induction H; cbn; intros s0; try tauto.
  destruct (o_write S s0 bs) as [[] s1]; auto. rewrite IHwless. reflexivity.
Qed.

Lemma wless_mem {E A} (ok : E -> Prop) (cut ub st : Prop) (p q : wprog E A) :
  wless ok cut ub st p q -> wmem p = wmem q \/
  (exists e, cut /\ ok e /\ fst (wmem p) = Err e /\ exists more, snd (wmem q) = snd (wmem p) ++ more) \/
  (ub /\ fst (wmem p) = UB /\ exists more, snd (wmem q) = snd (wmem p) ++ more) \/
  (st /\ fst (wmem p) = Stuck /\ exists more, snd (wmem q) = snd (wmem p) ++ more).
Proof.
  intros H. induction H; cbn; eauto 8.
  - destruct (wmem k) as [o1 out1], (wmem k') as [o2 out2]; cbn in *.
    destruct IHwless as [E0|[(e1 & X & Y & Z & m & M)|[(X & Z & m & M)|(X & Z & m & M)]]].
    + inversion E0; subst. auto.
    + right. left. exists e1. repeat split; auto. exists m. subst. rewrite app_assoc. auto.
    + right. right. left. repeat split; auto. exists m. subst. rewrite app_assoc. auto.
    + right. right. right. repeat split; auto. exists m. subst. rewrite app_assoc. auto.
Qed.

Definition yes : fty -> constr -> val -> Prop := fun _ k v => check k v <> CFalse.
Definition def : fty -> constr -> val -> Prop := fun _ k v => check k v <> CUndef.
Definition mat : fty -> constr -> val -> Prop := fun _ k v => check k v <> CStuck.

Lemma wless_check k v b (Q1 Q2 Q3 : Prop) :
  wless (eq ValidationFailure) (~ (yes b k v /\ Q1)) (~ (def b k v /\ Q2)) (~ (mat b k v /\ Q3))
    (wcheck k v) (WRet tt).
Proof.
  unfold wcheck, yes, def, mat. destruct (check k v); [apply wl_ret|apply wl_cut|apply wl_undef|apply wl_st]; tauto.
Qed.

Definition vf_at {A} (x : reason * A) : Prop := fst x = ValidationFailure.

Definition free_maybes (F gs : fields) : Prop :=
  forall id b p ids k, In (id, FMaybe b p ids, k) (f_list gs) -> is_derived F id = false.

Lemma in_relaxed id b p ids k gs : In (id, FMaybe b p ids, k) (f_list gs) ->
  In (id, FMaybe (relaxed_ty b) p ids, CNone) (f_list (relaxed gs)).
Proof.
  induction gs as [|i t k0 gs IH]; [intros []|]. rewrite relaxed_cons. cbn. intros [H|H]; [left|right; auto].
  inversion H; subst. reflexivity.
Qed.

Lemma members_in GA fs id t k : members GA fs -> In (id, t, k) (f_list fs) -> tlookup GA id = Some t.
Proof.
  induction fs as [|i t0 k0 fs IH]; cbn; [intros _ []|]. intros [H1 H2] [H|H]; auto. inversion H; subst. auto.
Qed.

Lemma maybes_free fs : wf_fields [] (relaxed fs) = true -> typed_fields [] (relaxed fs) = true -> free_maybes fs fs.
Proof.
  intros Hw Ht id b p ids k Hin. destruct (is_derived fs id) eqn:D; auto. exfalso.
  apply in_relaxed in Hin. destruct (wf_fields_ids _ _ Hw) as [Hn _].
  pose proof (members_tafter _ [] Hn) as Hm. rewrite <- rx_derived in D.
  destruct (targets_scalar (tafter [] (relaxed fs)) id (relaxed fs) [] Ht) as (s & n & Hl); auto.
  - intros i t H. discriminate.
  - rewrite D. reflexivity.
  - rewrite (members_in _ _ _ _ _ Hm Hin) in Hl. discriminate.
Qed.

Definition is_maybe (t : fty) : bool := match t with FMaybe _ _ _ => true | _ => false end.

Lemma mb_write_less c :
  (forall t G seen F V id mem k k' v, wf_ty seen (relaxed_ty t) = true -> typed_ty G (relaxed_ty t) = true ->
     (is_maybe t = true -> is_derived F id = false) ->
     (k = k' \/ (mem = false /\ is_derived F id = false) \/ is_maybe t = true) ->
     wless (eq ValidationFailure) (~ payloads_ty yes t k v) (~ payloads_ty def t k v) (~ payloads_ty mat t k v)
       (mb_write_ty c F V id mem k t v) (write_ty c (relaxed F) V id mem k' (relaxed_ty t) v)) /\
  (forall gs G seen F V ws, wf_fields seen (relaxed gs) = true -> typed_fields G (relaxed gs) = true ->
     free_maybes F gs ->
     wless vf_at (~ payloads yes gs ws) (~ payloads def gs ws) (~ payloads mat gs ws)
       (mb_write_fields c F V gs ws) (write_fields c (relaxed F) V (relaxed gs) ws)) /\
  (forall al G seen F V id i v, wf_alts seen (relaxed_alts al) = true -> typed_alts G (relaxed_alts al) = true ->
     wless (eq ValidationFailure) (~ payloads_alt yes al i v) (~ payloads_alt def al i v) (~ payloads_alt mat al i v)
       (mb_write_alts c F V id al i v) (write_alts c (relaxed F) V id (relaxed_alts al) i v)).
Proof.
  assert (FORALL : forall (P : fields -> list val -> Prop) gs xs x, In x xs ->
    ~ match x with VRec ws => P gs ws | _ => True end ->
    ~ Forall (fun x => match x with VRec ws => P gs ws | _ => True end) xs).
  { intros P gs xs x Hin Hn Hf. rewrite Forall_forall in Hf. apply Hn, Hf, Hin. }
  apply schema_mutind.
  - intros t n G seen F V id mem k k' v _ _ _ Hk. cbn. rewrite rx_write_fixed.
    destruct Hk as [->|[[-> D]|H]]; [apply wless_refl| |discriminate].
    rewrite (fixed_no_constr _ _ _ _ k k'); auto. apply wless_refl.
  - intros elt l b G seen F V id mem k k' v _ _ _ _. cbn. rewrite rx_mk_env. destruct v; apply wless_refl.
  - intros fs IH G seen F V id mem k k' v Hw Ht _ _. cbn in Hw, Ht |- *. destruct v; try apply wless_refl.
    apply (wless_maperr vf_at); [intros [r i] X; symmetry; exact X|].
    eapply IH; eauto. apply maybes_free; auto.
  - intros n fs IH G seen F V id mem k k' v Hw Ht _ _. cbn in Hw, Ht |- *. destruct v; try apply wless_refl.
    destruct (Nat.eqb _ _); [|apply wless_refl]. apply wless_for, Forall_forall. intros x Hx.
    destruct x; try apply wless_refl.
    apply (wless_maperr vf_at); [intros [r i] X; symmetry; exact X|].
    eapply wless_mono with (ok := vf_at); [auto| | | |eapply IH; eauto; apply maybes_free; auto];
      intros X; eapply FORALL; eauto.
  - intros fs IH sz l b G seen F V id mem k k' v Hw Ht _ _. cbn in Hw, Ht |- *. destruct v; try apply wless_refl.
    rewrite rx_mk_env. apply wless_bind; [apply wless_refl|]. intros _.
    apply andb_true_iff in Hw as [Hw _]. apply andb_true_iff in Hw as [Hw _]. apply andb_true_iff in Ht as [Ht _].
    apply wless_for, Forall_forall. intros x Hx. destruct x; try apply wless_refl.
    apply (wless_maperr vf_at); [intros [r i] X; symmetry; exact X|].
    eapply wless_mono with (ok := vf_at); [auto| | | |eapply IH; eauto; apply maybes_free; auto];
      intros X; eapply FORALL; eauto.
  - intros b IH p ids G seen F V id mem k k' v Hw Ht Hd _. cbn in Hw, Ht |- *. rewrite rx_mk_env.
    apply andb_true_iff in Hw as [_ Hw]. apply andb_true_iff in Ht as [_ Ht].
    specialize (Hd eq_refl).
    destruct (lookups _ _) as [args|]; [|apply wless_refl]. destruct (p args), v; try apply wless_refl.
    change (write_ty c (relaxed F) V id false CNone (relaxed_ty b) v)
      with (wbind (WRet (E:=reason) tt) (fun _ => write_ty c (relaxed F) V id false CNone (relaxed_ty b) v)).
    apply wless_bind; [apply wless_check|]. intros _.
    eapply wless_mono; [auto| | | |eapply IH; eauto]; tauto.
  - intros g al IH G seen F V id mem k k' v Hw Ht _ _. cbn in Hw, Ht |- *.
    apply andb_true_iff in Hw as [_ Hw]. apply andb_true_iff in Ht as [_ Ht].
    destruct v; try apply wless_refl. rewrite rx_mk_env.
    destruct g; [eapply IH; eauto| |];
      (destruct (deduce_type _ _) as [[j|]|]; try apply wless_refl; destruct (Nat.eqb j i);
       [eapply IH; eauto|apply wless_refl]).
  - intros G seen F V ws _ _ _. cbn. destruct ws; apply wless_refl.
  - intros id t IHt k fs IH G seen F V ws Hw Ht Hf. rewrite relaxed_cons in *. cbn in Hw, Ht |- *.
    apply andb_true_iff in Hw as [Hw Hw2]. apply andb_true_iff in Hw as [_ Hw].
    apply andb_true_iff in Ht as [Ht Ht2]. apply andb_true_iff in Ht as [Ht _].
    destruct ws as [|w ws]; [apply wless_refl|]. rewrite rx_derived, rx_frozen. apply wless_bind.
    + apply (wless_maperr (eq ValidationFailure)); [intros e <-; reflexivity|].
      apply wless_bind; [apply wless_refl|]. intros _.
      eapply wless_mono; [auto| | | |eapply IHt; eauto]; try tauto.
      * intros Hm. destruct t; try discriminate. eapply Hf. left. reflexivity.
      * destruct t; auto.
    + intros _. eapply wless_mono; [auto| | | |eapply IH; eauto]; try tauto.
      intros i b p ids k0 Hin. eapply Hf. right. exact Hin.
  - intros. apply wless_refl.
  - intros t IHt k al IH G seen F V id i v Hw Ht. cbn in Hw, Ht |- *.
    apply andb_true_iff in Hw as [Hw Hw2].
    apply andb_true_iff in Ht as [Ht Ht2]. apply andb_true_iff in Ht as [Ht _]. apply andb_true_iff in Ht as [Hfl Ht].
    destruct i; [|eapply IH; eauto]. apply wless_bind; [apply wless_refl|]. intros _.
    eapply IHt; eauto. destruct t; auto; discriminate.
Qed.

Lemma payloads_mono (P Q : fty -> constr -> val -> Prop) : (forall b k v, P b k v -> Q b k v) ->
  (forall t k v, payloads_ty P t k v -> payloads_ty Q t k v) /\
  (forall fs vs, payloads P fs vs -> payloads Q fs vs) /\
  (forall al i v, payloads_alt P al i v -> payloads_alt Q al i v).
Proof.
  intros H. apply schema_mutind.
  - intros t n k v. destruct v; auto.
  - intros elt l b k v. destruct v; auto.
  - cbn. intros fs IH k v. destruct v; auto.
  - cbn. intros n fs IH k v. destruct v; auto. apply Forall_impl. intros x. destruct x; auto.
  - cbn. intros fs IH sz l b k v. destruct v; auto. apply Forall_impl. intros x. destruct x; auto.
  - cbn. intros b IH p ids k v. destruct v; auto. intros [X Y]; auto.
  - cbn. intros g al IH k v. destruct v; auto.
  - cbn. auto.
  - cbn. intros id t IHt k fs IH [|v vs]; auto. intros [X Y]; auto.
  - cbn. auto.
  - cbn. intros t IHt k al IH [|i] v; auto.
Qed.

Lemma kept_checks fs vs : kept fs vs <-> payloads (fun _ k v => check k v = CTrue) fs vs.
Proof. split; apply payloads_mono; intros; apply check_holds; auto. Qed.

Lemma kept_run c fs vs : wf (relaxed fs) = true -> typed (relaxed fs) = true -> kept fs vs ->
  forall S s, wrun S (mb_stream_cast c fs vs) s = wrun S (stream_cast c (relaxed fs) vs) s.
Proof.
  intros Hw Ht Hk S s. apply kept_checks in Hk. unfold mb_stream_cast, stream_cast.
  destruct (mb_write_less c) as (_ & L & _).
  eapply wless_run; [| | |eapply L; eauto; apply maybes_free; auto];
    intros N; apply N; revert Hk; apply payloads_mono; unfold yes, def, mat; intros; congruence.
Qed.

(** ** A finished write kept them *)
Lemma wfor_each {A} (f : A -> wprog reason unit) (P : A -> Prop) l :
  (forall a o, In a l -> wmem (f a) = (Ok tt, o) -> P a) ->
  forall out, wmem (wfor l f) = (Ok tt, out) -> Forall P l.
Proof.
  induction l as [|a l IH]; intros H out; cbn; [constructor|]. intros W.
  apply wmem_bind_ok in W as ([] & o1 & o2 & W1 & W2 & _). constructor.
  - eapply H; [left; auto|eauto].
  - eapply IH; eauto. intros; eapply H; eauto. right; auto.
Qed.

Lemma wcheck_true k v o : wmem (wcheck k v) = (Ok tt, o) -> check k v = CTrue.
Proof. unfold wcheck. destruct (check k v); cbn; auto; discriminate. Qed.

Lemma mb_write_kept c :
  (forall t F V id mem k v out, wmem (mb_write_ty c F V id mem k t v) = (Ok tt, out) ->
     payloads_ty (fun _ k v => check k v = CTrue) t k v) /\
  (forall gs F V ws out, wmem (mb_write_fields c F V gs ws) = (Ok tt, out) ->
     payloads (fun _ k v => check k v = CTrue) gs ws) /\
  (forall al F V id i v out, wmem (mb_write_alts c F V id al i v) = (Ok tt, out) ->
     payloads_alt (fun _ k v => check k v = CTrue) al i v).
Proof.
  apply schema_mutind.
  - intros; destruct v; exact I.
  - intros; destruct v; exact I.
  - intros fs IH F V id mem k v out. cbn. destruct v; auto. intros H. apply wmem_maperr_ok in H. eauto.
  - intros n fs IH F V id mem k v out. cbn. destruct v; auto. destruct (Nat.eqb _ _); [|discriminate].
    apply wfor_each. intros x o Hx. destruct x; auto. intros H. apply wmem_maperr_ok in H. eauto.
  - intros fs IH sz l b F V id mem k v out. cbn. destruct v; auto. intros W.
    apply wmem_bind_ok in W as ([] & o1 & o2 & _ & W & _). revert W.
    apply wfor_each. intros x o Hx. destruct x; auto. intros H. apply wmem_maperr_ok in H. eauto.
  - intros b IH p ids F V id mem k v out. cbn. destruct (lookups _ _) as [args|]; [|discriminate].
    destruct v; auto. destruct (p args); [|discriminate]. intros W.
    apply wmem_bind_ok in W as ([] & o1 & o2 & W1 & W & _). split; [eapply wcheck_true|]; eauto.
  - intros g al IH F V id mem k v out. cbn. destruct v; auto.
    destruct g; [apply IH| |]; (destruct (deduce_type _ _) as [[j|]|]; try discriminate;
      destruct (Nat.eqb j i); [apply IH|discriminate]).
  - intros F V ws out _. exact I.
  - intros id t IHt k fs IH F V ws out. cbn. destruct ws as [|w ws]; auto. intros W.
    apply wmem_bind_ok in W as ([] & o1 & o2 & W1 & W & _). split; [|eauto].
    apply wmem_maperr_ok in W1. apply wmem_bind_ok in W1 as ([] & o3 & o4 & _ & W1 & _). eauto.
  - intros F V id i v out _. exact I.
  - intros t IHt k al IH F V id [|i] v out; cbn; [|eauto]. intros W.
    apply wmem_bind_ok in W as ([] & o3 & o4 & _ & W1 & _). eauto.
Qed.

Lemma mb_done c fs vs out : wf (relaxed fs) = true -> typed (relaxed fs) = true ->
  (wmem (mb_stream_cast c fs vs) = (Ok tt, out) <->
   kept fs vs /\ wmem (stream_cast c (relaxed fs) vs) = (Ok tt, out)).
Proof.
  intros Hw Ht. destruct (mb_write_less c) as (_ & L & _). destruct (mb_write_kept c) as (_ & K & _).
  specialize (L fs [] [] fs vs vs Hw Ht (maybes_free fs Hw Ht)). apply wless_mem in L.
  assert (X : kept fs vs -> wmem (mb_stream_cast c fs vs) = wmem (stream_cast c (relaxed fs) vs)).
  { intros Hk. apply kept_checks in Hk. unfold mb_stream_cast, stream_cast.
    destruct L as [L|[(e & N & _)|[(N & _)|(N & _)]]]; auto; exfalso; apply N;
      revert Hk; apply payloads_mono; unfold yes, def, mat; intros; congruence. }
  split.
  - intros H. assert (Hk : kept fs vs) by (apply kept_checks; eapply K; exact H). split; auto.
    rewrite <- X; auto.
  - intros [Hk H]. rewrite X; auto.
Qed.

(** ** A write that did not *)
Lemma payloads_and (P Q : fty -> constr -> val -> Prop) :
  (forall t k v, payloads_ty P t k v -> payloads_ty Q t k v -> payloads_ty (fun b k v => P b k v /\ Q b k v) t k v) /\
  (forall fs vs, payloads P fs vs -> payloads Q fs vs -> payloads (fun b k v => P b k v /\ Q b k v) fs vs) /\
  (forall al i v, payloads_alt P al i v -> payloads_alt Q al i v -> payloads_alt (fun b k v => P b k v /\ Q b k v) al i v).
Proof.
  assert (FA : forall fs xs, (forall vs, payloads P fs vs -> payloads Q fs vs ->
      payloads (fun b k v => P b k v /\ Q b k v) fs vs) ->
    Forall (fun x => match x with VRec vs => payloads P fs vs | _ => True end) xs ->
    Forall (fun x => match x with VRec vs => payloads Q fs vs | _ => True end) xs ->
    Forall (fun x => match x with VRec vs => payloads (fun b k v => P b k v /\ Q b k v) fs vs | _ => True end) xs).
  { intros fs xs IH H1 H2. rewrite Forall_forall in *. intros x Hx. specialize (H1 x Hx). specialize (H2 x Hx).
    destruct x; auto. }
  apply schema_mutind.
  - intros t n k v. destruct v; auto.
  - intros elt l b k v. destruct v; auto.
  - cbn. intros fs IH k v. destruct v; auto.
  - cbn. intros n fs IH k v. destruct v; auto.
  - cbn. intros fs IH sz l b k v. destruct v; auto.
  - cbn. intros b IH p ids k v. destruct v; auto. intros [] []; auto.
  - cbn. intros g al IH k v. destruct v; auto.
  - cbn. auto.
  - cbn. intros id t IHt k fs IH [|v vs]; auto. intros [] []; auto.
  - cbn. auto.
  - cbn. intros t IHt k al IH [|i] v; auto.
Qed.

Lemma has_payloads :
  (forall t k v, has_ty t v -> payloads_ty (fun b _ v => has_ty b v) t k v) /\
  (forall fs vs, has_fields fs vs -> payloads (fun b _ v => has_ty b v) fs vs) /\
  (forall al i v, has_alt al i v -> payloads_alt (fun b _ v => has_ty b v) al i v).
Proof.
  apply schema_mutind.
  - intros t n k v. destruct v; exact (fun _ => I).
  - intros elt l b k v. destruct v; exact (fun _ => I).
  - cbn. intros fs IH k v. destruct v; auto.
  - cbn. intros n fs IH k v. destruct v; auto. intros [_ H]. revert H. apply Forall_impl. intros x. destruct x; auto.
  - cbn. intros fs IH sz l b k v. destruct v; auto. apply Forall_impl. intros x. destruct x; auto.
  - cbn. intros b IH p ids k v. destruct v; auto.
  - cbn. intros g al IH k v. destruct v; auto.
  - cbn. auto.
  - cbn. intros id t IHt k fs IH [|v vs]; auto. intros []; auto.
  - cbn. auto.
  - cbn. intros t IHt k al IH [|i] v; auto.
Qed.

Lemma mb_stopped c fs vs out : wf (relaxed fs) = true -> typed (relaxed fs) = true -> has_fields fs vs ->
  payloads (fun b k v => constr_ok b k = true /\ ~ senseless k v) fs vs ->
  wmem (stream_cast c (relaxed fs) vs) = (Ok tt, out) -> ~ kept fs vs ->
  exists id o more, wmem (mb_stream_cast c fs vs) = (Err (ValidationFailure, id), o) /\ out = o ++ more.
Proof.
  intros Hw Ht Hv Hp Hok Hk. destruct (mb_write_less c) as (_ & L & _).
  specialize (L fs [] [] fs vs vs Hw Ht (maybes_free fs Hw Ht)). apply wless_mem in L.
  assert (B : payloads (fun b k v => check k v <> CUndef /\ check k v <> CStuck) fs vs).
  { destruct has_payloads as (_ & HP & _). pose proof (proj1 (proj2 (payloads_and _ _)) fs vs Hp (HP fs vs Hv)) as X.
    revert X. apply payloads_mono. intros b k v [[H1 H2] H3]. destruct (check_typed b k v H1 H3) as [H4 _].
    split; auto. intros E. apply H2, (check_senseless b k v H1 H3), E. }
  fold (mb_stream_cast c fs vs) in L. fold (stream_cast c (relaxed fs) vs) in L. rewrite Hok in L.
  destruct L as [L|[([r id] & _ & Hr & E1 & more & E2)|[(N & _)|(N & _)]]].
  - exfalso. apply Hk. apply (mb_done c fs vs out Hw Ht). exact L.
  - unfold vf_at in Hr. cbn in Hr. subst r. destruct (wmem (mb_stream_cast c fs vs)) as [o1 out1]. cbn in *. subst.
    eauto 6.
  - exfalso. apply N. revert B. apply payloads_mono. unfold def. tauto.
  - exfalso. apply N. revert B. apply payloads_mono. unfold mat. tauto.
Qed.

(** Which field. *)
Lemma rx_app a b : relaxed (f_app a b) = f_app (relaxed a) (relaxed b).
Proof. induction a; auto. cbn [f_app]. rewrite !relaxed_cons. cbn [f_app]. rewrite IHa. reflexivity. Qed.

Lemma rx_len a : f_len (relaxed a) = f_len a.
Proof. induction a; auto. rewrite relaxed_cons. cbn. rewrite IHa. reflexivity. Qed.

Lemma rx_has :
  (forall t v, has_ty t v -> has_ty (relaxed_ty t) v) /\
  (forall fs vs, has_fields fs vs -> has_fields (relaxed fs) vs) /\
  (forall al i v, has_alt al i v -> has_alt (relaxed_alts al) i v).
Proof.
  apply schema_mutind; auto.
  - cbn. intros fs IH v. destruct v; auto.
  - cbn. intros n fs IH v. destruct v; auto. intros [L H]. split; auto. revert H. apply Forall_impl.
    intros x. destruct x; auto.
  - cbn. intros fs IH sz l b v. destruct v; auto. apply Forall_impl. intros x. destruct x; auto.
  - cbn. intros b IH p ids v. destruct v; auto.
  - cbn. intros g al IH v. destruct v; auto.
  - intros id t IHt k fs IH vs. rewrite relaxed_cons. cbn. destruct vs; auto. intros []; auto.
  - cbn. intros t IHt k al IH [|i] v; auto.
Qed.

Lemma mb_write_fields_app c fs vs pre gs ws : forall vpre, length vpre = f_len pre ->
  mb_write_fields c fs vs (f_app pre gs) (vpre ++ ws) =
  wbind (mb_write_fields c fs vs pre vpre) (fun _ => mb_write_fields c fs vs gs ws).
Proof.
  induction pre; intros [|v vpre] L; cbn [f_app app f_len length] in *; try discriminate; auto.
  cbn [mb_write_fields]. rewrite IHpre by lia. rewrite wbind_assoc. auto.
Qed.

Lemma f_list_app a b : f_list (f_app a b) = f_list a ++ f_list b.
Proof. induction a; cbn; auto. rewrite IHa. reflexivity. Qed.

Lemma mb_first c fs vs pre id b p ids k v out :
  wf (relaxed fs) = true -> typed (relaxed fs) = true -> has_fields fs vs ->
  field_at fs vs pre id (FMaybe b p ids) k (VSome v) -> constr_ok b k = true -> ~ senseless k v ->
  kept pre (firstn (f_len pre) vs) -> ~ holds k v ->
  wmem (stream_cast c (relaxed fs) vs) = (Ok tt, out) ->
  wmem (mb_stream_cast c fs vs) =
    (Err (ValidationFailure, id), bytes_before c (relaxed pre) (emitted c (relaxed fs) vs)).
Proof.
  intros Hw Ht Hv (post & vpre & vpost & E1 & E2 & Len) Hc Hs Hk Hn Hok.
  assert (Hat : field_at (relaxed fs) vs (relaxed pre) id (FMaybe (relaxed_ty b) p ids) CNone (VSome v)).
  { exists (relaxed post), vpre, vpost. rewrite E1, rx_app, rx_len. auto. }
  assert (Hvb : has_ty b v).
  { rewrite E1, E2 in Hv. apply has_fields_app' in Hv; auto. cbn in Hv. tauto. }
  destruct (split_cast c (relaxed fs) vs (relaxed pre) id _ CNone (VSome v) Hw Ht
      (proj1 (proj2 rx_has) _ _ Hv) Hat True (or_intror I))
    as (post1 & vpre1 & vpost1 & E3 & E4 & Len1 & Hsplit & G1 & G2 & _).
  assert (vpre1 = vpre /\ vpost1 = vpost) as [-> ->].
  { rewrite E2 in E4. rewrite rx_len, <- Len in Len1. clear - E4 Len1. revert vpre1 E4 Len1.
    induction vpre; intros [|x l] E L; cbn in *; try discriminate; inversion E; auto.
    subst. destruct (IHvpre l) as [-> ->]; auto. }
  rewrite Hsplit in Hok. apply wmem_bind_ok in Hok as ([] & o1 & o2 & R1 & R2 & ->).
  apply wmem_bind_ok in R2 as ([] & o3 & o4 & R2 & _ & ->). apply wmem_maperr_ok in R2.
  rewrite R1 in G1. unfold good in G1. cbn in G1. subst o1.
  assert (Hfree : free_maybes fs pre).
  { intros i b0 p0 ids0 k0 Hin. eapply (maybes_free fs); eauto. rewrite E1, f_list_app. apply in_or_app. eauto. }
  assert (Hpre : wmem (mb_write_fields c fs vs pre vpre) = wmem (write_fields c (relaxed fs) vs (relaxed pre) vpre)).
  { destruct (mb_write_less c) as (_ & L & _).
    assert (W : wf_fields [] (relaxed pre) = true /\ typed_fields [] (relaxed pre) = true).
    { unfold wf, typed in *. rewrite E1, rx_app in Hw, Ht. apply wf_fields_app in Hw. rewrite typed_fields_app in Ht.
      apply andb_true_iff in Ht. tauto. }
    specialize (L pre [] [] fs vs vpre (proj1 W) (proj2 W) Hfree).
    apply wless_mem in L. rewrite E2 in Hk. rewrite <- Len in Hk. rewrite firstn_app, Nat.sub_diag, firstn_all in Hk.
    cbn in Hk. rewrite app_nil_r in Hk. apply kept_checks in Hk.
    destruct L as [L|[(e & N & _)|[(N & _)|(N & _)]]]; auto; exfalso; apply N;
      revert Hk; apply payloads_mono; unfold yes, def, mat; intros; congruence. }
  unfold mb_stream_cast. rewrite E1 at 2. rewrite E2 at 2. rewrite mb_write_fields_app by auto.
  rewrite wmem_bind, Hpre, R1. cbn [mb_write_fields].
  assert (Hd : is_derived fs id = false).
  { eapply (maybes_free fs); eauto. rewrite E1, f_list_app. apply in_or_app. right. left. reflexivity. }
  rewrite wmem_bind, wmem_maperr, wmem_bind. rewrite Hd. cbn [own_constr is_frozen frozen_value orb wcheck check wmem].
  unfold field_prog in R2. apply wmem_bind_ok in R2 as ([] & o5 & o6 & _ & R2 & _).
  cbn [write_ty] in R2. rewrite rx_mk_env in R2. cbn [mb_write_ty].
  destruct (lookups (mk_env fs vs) ids) as [args|]; [|discriminate]. destruct (p args); [|discriminate].
  rewrite wmem_bind. unfold wcheck. destruct (check_typed b k v Hc Hvb) as [H4 _].
  destruct (check k v) eqn:E; cbn.
  - exfalso. apply Hn, check_holds, E.
  - rewrite app_nil_r. reflexivity.
  - exfalso. apply Hs, (check_senseless b k v Hc Hvb), E.
  - congruence.
Qed.

Lemma mb_back c fs vs out rest :
  wf (relaxed fs) = true -> typed (relaxed fs) = true -> has_fields fs vs ->
  clean_fields c (relaxed fs) = true -> in_sync c (relaxed fs) vs ->
  sized_fields c (relaxed fs) (emitted c (relaxed fs) vs) ->
  wmem (mb_stream_cast c fs vs) = (Ok tt, out) ->
  rmem (mb_struct_cast c fs) (out ++ rest) = (Ok (emitted c (relaxed fs) vs), rest).
Proof.
  intros Hw Ht Hv H1 H2 H3 H. apply mb_done in H as [_ H]; auto.
  rewrite (req_rmem _ _ (mb_cast_same c fs)).
  apply (round_trip_full c (relaxed fs) vs out rest); auto. apply rx_has, Hv.
Qed.
