(** The casts with user code in the environment, against the casts of Read.v and
    Write.v. *)
From Verif Require Import UserSpec ProgFacts ReadFacts.

(** ** Exceptions *)

Lemma urun_throw (H : host) {E A} (p : uprog E A) : forall s o s' ev, urun H p s = (o, s', ev) ->
  (o = Throw <-> exists x, In x ev /\ threw x = true) /\
  (forall ev1 x ev2, ev = ev1 ++ x :: ev2 -> threw x = true -> ev2 = []).
Proof.
  assert (T0 : forall o : outcome E A, o <> Throw ->
    (o = Throw <-> exists x : uevent, In x [] /\ threw x = true) /\
    (forall ev1 x ev2, [] = ev1 ++ x :: ev2 -> threw x = true -> ev2 = [])).
  { intros o Ho. split; [split; [tauto|intros (x & [] & _)]|]. intros [|] ? ? ?; discriminate. }
  assert (T1 : forall (o : outcome E A) x, (o = Throw <-> threw x = true) ->
    (o = Throw <-> exists x', In x' [x] /\ threw x' = true) /\
    (forall ev1 x' ev2, [x] = ev1 ++ x' :: ev2 -> threw x' = true -> ev2 = [])).
  { intros o x Ho. split.
    - rewrite Ho. split; [intros Hx; exists x; simpl; auto|intros (x' & [<-|[]] & Hx); auto].
    - intros [|y ev1] x' ev2 E2 _; inversion E2; auto. destruct ev1; discriminate. }
  assert (T2 : forall (o : outcome E A) x ev, threw x = false ->
    (o = Throw <-> exists x', In x' ev /\ threw x' = true) /\
    (forall ev1 x' ev2, ev = ev1 ++ x' :: ev2 -> threw x' = true -> ev2 = []) ->
    (o = Throw <-> exists x', In x' (x :: ev) /\ threw x' = true) /\
    (forall ev1 x' ev2, x :: ev = ev1 ++ x' :: ev2 -> threw x' = true -> ev2 = [])).
  { intros o x ev Hx [H1 H2]. split.
    - rewrite H1. split; intros (y & Hin & Hy); [exists y; simpl; auto|].
      destruct Hin as [<-|Hin]; [congruence|eauto].
    - intros [|y ev1] x' ev2 E2 Hx'; inversion E2; subst; [congruence|eauto]. }
  assert (D1 : (Throw : outcome E A) = Throw <-> true = true) by tauto.
  assert (D2 : forall e, (Err e : outcome E A) = Throw <-> false = true) by (intros; split; discriminate).
  induction p; simpl; intros s o s' ev R;
    try (injection R as <- <- <-; apply T0; discriminate).
  - destruct (h_read H s n) as [[[bs|]|] s1].
    + destruct (urun H (k bs) s1) as [[o1 s2] ev1] eqn:Q. injection R as <- <- <-. apply T2; eauto.
    + injection R as <- <- <-. apply T1; simpl; auto.
    + injection R as <- <- <-. apply T1; simpl; auto.
  - destruct (h_alloc H s n) as [[[]|] s1].
    + destruct (urun H p s1) as [[o1 s2] ev1] eqn:Q. injection R as <- <- <-. apply T2; eauto.
    + injection R as <- <- <-. apply T1; simpl; auto.
  - destruct (h_write H s bs) as [[[|]|] s1].
    + destruct (urun H p s1) as [[o1 s2] ev1] eqn:Q. injection R as <- <- <-. apply T2; eauto.
    + injection R as <- <- <-. apply T1; simpl; auto.
    + injection R as <- <- <-. apply T1; simpl; auto.
  - destruct (h_num H s f args) as [[z|] s1].
    + destruct (urun H (k z) s1) as [[o1 s2] ev1] eqn:Q. injection R as <- <- <-. apply T2; eauto.
    + injection R as <- <- <-. apply T1; simpl; auto.
  - destruct (h_test H s p args) as [[b|] s1].
    + destruct (urun H (k b) s1) as [[o1 s2] ev1] eqn:Q. injection R as <- <- <-. apply T2; eauto.
    + injection R as <- <- <-. apply T1; simpl; auto.
  - destruct (h_check H s p v) as [[b|] s1].
    + destruct (urun H (k b) s1) as [[o1 s2] ev1] eqn:Q. injection R as <- <- <-. apply T2; eauto.
    + injection R as <- <- <-. apply T1; simpl; auto.
Qed.

(** ** Reading: the same program once user code answers like a function *)

Inductive sim {E A} : uprog E A -> rprog E A -> Prop :=
| sim_ret a : sim (URet a) (RRet a)
| sim_err e : sim (UErr e) (RErr e)
| sim_ub : sim UUB RUB
| sim_stuck : sim UStuck RStuck
| sim_read n e k k' : (forall bs, sim (k bs) (k' bs)) -> sim (URead n e k) (RRead n e k')
| sim_alloc n k k' : sim k k' -> sim (UAlloc n k) (RAlloc n k')
| sim_num f args k q : sim (k (f args)) q -> sim (UNum f args k) q
| sim_test p args k q : sim (k (p args)) q -> sim (UTest p args k) q
| sim_check p v k q : sim (k (p v)) q -> sim (UCheck p v k) q.

Lemma sim_bind {E A B} (p : uprog E A) q (f : A -> uprog E B) g :
  sim p q -> (forall a, sim (f a) (g a)) -> sim (ubind p f) (rbind q g).
Proof. intros H Hf. induction H; simpl; try constructor; auto. Qed.

Lemma sim_maperr {E E' A} (g : E -> E') (p : uprog E A) q : sim p q -> sim (umaperr g p) (rmaperr g q).
Proof. induction 1; simpl; constructor; auto. Qed.

Lemma sim_rep {E A} n (p : uprog E A) q : sim p q -> sim (urep n p) (rrep n q).
Proof.
  intros H. induction n; simpl; [constructor|].
  apply sim_bind; auto. intros a. apply sim_bind; auto. intros; constructor.
Qed.

Lemma sim_of_r {E A} (p : rprog E A) : sim (of_r p) p.
Proof. induction p; simpl; constructor; auto. Qed.

Lemma sim_len {A} c e l (f : Z -> uprog reason A) g : (forall n, sim (f n) (g n)) ->
  sim (ubind (u_len c e l) f) (match deduce_len c e l with Some n => g n | None => RStuck end).
Proof.
  intros H. destruct l; simpl.
  - destruct (lookup e id) as [[]|]; simpl; try constructor; auto.
  - destruct (lookups e ids); simpl; try constructor; auto.
Qed.

Lemma sim_rcheck k v : sim (u_rcheck k v) (rcheck k v).
Proof.
  unfold u_rcheck, u_holds, rcheck. destruct k; try (destruct (check _ v); simpl; now constructor).
  simpl. constructor. unfold cres_of_bool. destruct (f v); constructor.
Qed.

Lemma sim_ladder {A} e brs : forall (f : option nat -> uprog reason A) g,
  (forall r, sim (f r) (g r)) ->
  sim (ubind (u_ladder e brs) f) (match eval_ladder e brs with Some r => g r | None => RStuck end).
Proof.
  induction brs as [|[p ids] brs IH]; simpl; intros f g H; auto.
  destruct (lookups e ids) as [vs|]; simpl; [|constructor].
  constructor. destruct (p vs); simpl; auto.
  specialize (IH (fun r => f (option_map S r)) (fun r => g (option_map S r)) (fun r => H _)).
  assert (Q : forall p : uprog reason (option nat),
    sim (ubind p (fun r => f (option_map S r)))
        (match eval_ladder e brs with Some r => g (option_map S r) | None => RStuck end) ->
    sim (ubind (ubind p (fun r => URet (option_map S r))) f)
        (match eval_ladder e brs with Some r => g (option_map S r) | None => RStuck end)).
  { clear. intros p. revert g. generalize (eval_ladder e brs). intros o g. 
    set (q := match o with Some r => g (option_map S r) | None => RStuck end). clearbody q. revert q.
    induction p; simpl; intros q Hs; auto; inversion Hs; subst; constructor; auto. }
  apply Q in IH. destruct (eval_ladder e brs); auto.
Qed.

Lemma sim_type {A} e g (f : option nat -> uprog reason A) h : (forall r, sim (f r) (h r)) ->
  sim (ubind (u_type e g) f) (match deduce_type e g with Some r => h r | None => RStuck end).
Proof.
  intros H. destruct g; simpl.
  - destruct (lookup e id) as [[]|]; simpl; try constructor; auto.
  - destruct (lookups e ids); simpl; try constructor; auto.
  - apply sim_ladder; auto.
Qed.

Lemma reader_sim :
  (forall t c e, sim (u_read c e t) (read_ty c e t)) /\
  (forall fs c e, sim (u_read_fields c e fs) (read_fields c e fs)) /\
  (forall al c e i, sim (u_read_alts c e al i) (read_alts c e al i)).
Proof.
  apply schema_mutind; cbn [u_read read_ty u_read_fields read_fields u_read_alts read_alts].
  - intros. apply sim_of_r.
  - intros. apply sim_len. intros. apply sim_of_r.
  - intros fs IH c e. apply sim_bind; [apply sim_maperr; auto|]. intros; constructor.
  - intros n fs IH c e. apply sim_bind; [|intros; constructor]. apply sim_rep.
    apply sim_bind; [apply sim_maperr; auto|]. intros; constructor.
  - intros fs IH recsz l b c e. apply sim_len. intros n.
    destruct (len_allowed _ _ _); [|constructor]. constructor.
    apply sim_bind; [|intros; constructor]. apply sim_rep.
    apply sim_bind; [apply sim_maperr; auto|]. intros; constructor.
  - intros b IH p ids c e. destruct (lookups e ids); [|constructor]. constructor.
    destruct (p l); [|constructor]. apply sim_bind; auto. intros; constructor.
  - intros g al IH c e.
    assert (Q : forall q, q = (match deduce_type e g with
                 | Some r => match r with
                             | Some i => rbind (read_alts c e al i) (fun v => RRet (VAlt i v))
                             | None => RErr TypeDeductionFailure
                             end
                 | None => RStuck
                 end) -> sim (ubind (u_type e g) (fun r =>
        match r with
        | Some i => ubind (u_read_alts c e al i) (fun v => URet (VAlt i v))
        | None => UErr TypeDeductionFailure
        end)) q).
    { intros q ->. apply (sim_type e g _ (fun r => match r with
                             | Some i => rbind (read_alts c e al i) (fun v => RRet (VAlt i v))
                             | None => RErr TypeDeductionFailure
                             end)).
      intros [i|]; [|constructor]. apply sim_bind; auto. intros; constructor. }
    apply Q. destruct (deduce_type e g) as [[|]|]; reflexivity.
  - constructor.
  - intros id t IHt k fs IH c e. apply sim_bind.
    + apply sim_maperr, sim_bind; auto. intros v. apply sim_rcheck.
    + intros v. apply sim_bind; auto. intros; constructor.
  - constructor.
  - intros t IHt k al IH c e [|i]; auto. apply sim_bind; auto. intros v. apply sim_rcheck.
Qed.

Lemma sim_run {E A} (H : host) (p : uprog E A) q : sim p q -> honest H ->
  forall s o s' ev, urun H p s = (o, s', ev) ->
  (o <> Throw -> rrun replay grants q (flat_map read_answer ev) = (o, [], flat_map io_read ev)) /\
  (o = Throw -> exists o' st ev',
     rrun replay grants q (flat_map read_answer ev) = (o', st, flat_map io_read ev ++ ev')).
Proof.
  intros Hs (H1 & H2 & H3). induction Hs; simpl; intros s o s' ev R;
    try (injection R as <- <- <-; split; [auto|discriminate]).
  - destruct (h_read H s n) as [[[bs|]|] s1].
    + destruct (urun H (k bs) s1) as [[o1 s2] ev1] eqn:Q. injection R as <- <- <-.
      destruct (H4 _ _ _ _ _ Q) as [Q1 Q2]. simpl. split; intros Ho.
      * rewrite Q1; auto.
      * destruct (Q2 Ho) as (o' & st & ev' & ->). eauto.
    + injection R as <- <- <-. split; [auto|discriminate].
    + injection R as <- <- <-. split; [congruence|]. intros _. simpl. eauto.
  - destruct (h_alloc H s n) as [[[]|] s1].
    + destruct (urun H k s1) as [[o1 s2] ev1] eqn:Q. injection R as <- <- <-.
      destruct (IHHs _ _ _ _ Q) as [Q1 Q2]. simpl. split; intros Ho.
      * rewrite Q1; auto.
      * destruct (Q2 Ho) as (o' & st & ev' & ->). eauto.
    + injection R as <- <- <-. split; [congruence|]. intros _. simpl.
      destruct (rrun replay grants k' []) as [[o' st] ev']. eauto.
  - specialize (H1 s f args). destruct (h_num H s f args) as [[z|] s1].
    + assert (z = _) by (apply H1; reflexivity); subst z.
      destruct (urun H (k (f args)) s1) as [[o1 s2] ev1] eqn:Q. injection R as <- <- <-. exact (IHHs _ _ _ _ Q).
    + injection R as <- <- <-. split; [congruence|]. intros _. simpl.
      destruct (rrun replay grants q []) as [[o' st] ev']. eauto.
  - specialize (H2 s p args). destruct (h_test H s p args) as [[z|] s1].
    + assert (z = _) by (apply H2; reflexivity); subst z.
      destruct (urun H (k (p args)) s1) as [[o1 s2] ev1] eqn:Q. injection R as <- <- <-. exact (IHHs _ _ _ _ Q).
    + injection R as <- <- <-. split; [congruence|]. intros _. simpl.
      destruct (rrun replay grants q []) as [[o' st] ev']. eauto.
  - specialize (H3 s p v). destruct (h_check H s p v) as [[z|] s1].
    + assert (z = _) by (apply H3; reflexivity); subst z.
      destruct (urun H (k (p v)) s1) as [[o1 s2] ev1] eqn:Q. injection R as <- <- <-. exact (IHHs _ _ _ _ Q).
    + injection R as <- <- <-. split; [congruence|]. intros _. simpl.
      destruct (rrun replay grants q []) as [[o' st] ev']. eauto.
Qed.

Lemma sim_pure {E A} (S : istream) (p : uprog E A) q : sim p q ->
  forall s o s' ev, urun (pure_in S) p s = (o, s', ev) ->
  rrun S grants q s = (o, s', flat_map io_read ev).
Proof.
  induction 1; simpl; intros s o s' ev R; try (injection R as <- <- <-; auto).
  - destruct (i_read S s n) as [[bs|] s1].
    + destruct (urun (pure_in S) (k bs) s1) as [[o1 s2] ev1] eqn:Q. injection R as <- <- <-.
      rewrite (H0 _ _ _ _ _ Q). reflexivity.
    + injection R as <- <- <-. reflexivity.
  - destruct (urun (pure_in S) k s) as [[o1 s2] ev1] eqn:Q. injection R as <- <- <-.
    rewrite (IHsim _ _ _ _ Q). reflexivity.
  - destruct (urun (pure_in S) (k _) s) as [[o1 s2] ev1] eqn:Q. injection R as <- <- <-. exact (IHsim _ _ _ _ Q).
  - destruct (urun (pure_in S) (k _) s) as [[o1 s2] ev1] eqn:Q. injection R as <- <- <-. exact (IHsim _ _ _ _ Q).
  - destruct (urun (pure_in S) (k _) s) as [[o1 s2] ev1] eqn:Q. injection R as <- <- <-. exact (IHsim _ _ _ _ Q).
Qed.

(** ** Writing *)

Inductive wsim {E A} : uprog E A -> wprog E A -> Prop :=
| wsim_ret a : wsim (URet a) (WRet a)
| wsim_err e : wsim (UErr e) (WErr e)
| wsim_ub : wsim UUB WUB
| wsim_stuck : wsim UStuck WStuck
| wsim_write bs e k k' : wsim k k' -> wsim (UWrite bs e k) (WWrite bs e k')
| wsim_num f args k q : wsim (k (f args)) q -> wsim (UNum f args k) q
| wsim_test p args k q : wsim (k (p args)) q -> wsim (UTest p args k) q
| wsim_check p v k q : wsim (k (p v)) q -> wsim (UCheck p v k) q.

Lemma wsim_bind {E A B} (p : uprog E A) q (f : A -> uprog E B) g :
  wsim p q -> (forall a, wsim (f a) (g a)) -> wsim (ubind p f) (wbind q g).
Proof. intros H Hf. induction H; simpl; try constructor; auto. Qed.

Lemma wsim_maperr {E E' A} (g : E -> E') (p : uprog E A) q : wsim p q -> wsim (umaperr g p) (wmaperr g q).
Proof. induction 1; simpl; constructor; auto. Qed.

Lemma wsim_for {E A} (l : list A) (f : A -> uprog E unit) g : (forall a, wsim (f a) (g a)) ->
  wsim (ufor l f) (wfor l g).
Proof. intros H. induction l; simpl; [constructor|]. apply wsim_bind; auto. Qed.

Lemma wsim_of_w {E A} (p : wprog E A) : wsim (of_w p) p.
Proof. induction p; simpl; constructor; auto. Qed.

Lemma wsim_assoc {E A B C} (p : uprog E A) (h : A -> uprog E B) (f : B -> uprog E C) : forall q,
  wsim (ubind p (fun a => ubind (h a) f)) q -> wsim (ubind (ubind p h) f) q.
Proof. induction p; simpl; intros q Hs; auto; inversion Hs; subst; constructor; auto. Qed.

Lemma wsim_wcheck k v : wsim (u_wcheck k v) (wcheck k v).
Proof.
  unfold u_wcheck, u_holds, wcheck. destruct k; try (destruct (check _ v); simpl; now constructor).
  simpl. constructor. unfold cres_of_bool. destruct (f v); constructor.
Qed.

Lemma wsim_ladder {A} e brs : forall (f : option nat -> uprog reason A) g,
  (forall r, wsim (f r) (g r)) ->
  wsim (ubind (u_ladder e brs) f) (match eval_ladder e brs with Some r => g r | None => WStuck end).
Proof.
  induction brs as [|[p ids] brs IH]; simpl; intros f g H; auto.
  destruct (lookups e ids) as [vs|]; simpl; [|constructor].
  constructor. destruct (p vs); simpl; auto.
  apply wsim_assoc. simpl.
  specialize (IH (fun r => f (option_map S r)) (fun r => g (option_map S r)) (fun r => H _)).
  destruct (eval_ladder e brs); auto.
Qed.

Lemma wsim_type {A} e g (f : option nat -> uprog reason A) h : (forall r, wsim (f r) (h r)) ->
  wsim (ubind (u_type e g) f) (match deduce_type e g with Some r => h r | None => WStuck end).
Proof.
  intros H. destruct g; simpl.
  - destruct (lookup e id) as [[]|]; simpl; try constructor; auto.
  - destruct (lookups e ids); simpl; try constructor; auto.
  - apply wsim_ladder; auto.
Qed.

Lemma wsim_agrees {A} e id w t v (f : bool -> uprog reason A) g : (forall b, wsim (f b) (g b)) ->
  wsim (ubind (u_cond_agrees e id w t v) f)
    (match cond_agrees e id w t v with Some b => g b | None => WStuck end).
Proof.
  intros H.
  assert (Q : forall o : option bool, wsim (ubind (match o with Some b => URet b | None => UStuck end) f)
    (match o with Some b => g b | None => WStuck end)) by (intros [b|]; simpl; auto; constructor).
  unfold u_cond_agrees.
  destruct t as [| | | | |b p ids|]; try apply Q.
  destruct v as [| | | |v'| |]; try apply Q.
  unfold cond_agrees. cbn [cond_target]. destruct (ident_is _ _); simpl; auto.
  destruct (lookups e ids); simpl; [|constructor]. constructor.
  destruct (p l); simpl; auto. destruct (val_size v'); simpl; auto. constructor.
Qed.

Lemma wsim_verify {A} e id w fs : forall vs (f : bool -> uprog reason A) g, (forall b, wsim (f b) (g b)) ->
  wsim (ubind (u_verify e id w fs vs) f)
    (match verify_cond e id w fs vs with Some b => g b | None => WStuck end).
Proof.
  induction fs as [|id' t k fs IH]; intros [|v vs] f g H; simpl; auto; try constructor.
  apply wsim_assoc.
  pose proof (wsim_agrees e id w t v (fun a => ubind (ubind (u_verify e id w fs vs) (fun b => URet (a && b))) f)
    (fun a => match verify_cond e id w fs vs with Some b => g (a && b) | None => WStuck end)) as Q.
  destruct (cond_agrees e id w t v) as [a|].
  - replace (match (match verify_cond e id w fs vs with Some b => Some (a && b) | None => None end) with
             Some b => g b | None => WStuck end)
      with (match verify_cond e id w fs vs with Some b => g (a && b) | None => WStuck end)
      by (destruct (verify_cond e id w fs vs); reflexivity).
    apply Q. intros b. apply wsim_assoc. simpl. apply (IH vs (fun b' => f (b && b')) (fun b' => g (b && b'))).
    auto.
  - apply Q. intros b. apply wsim_assoc. simpl. apply (IH vs (fun b' => f (b && b')) (fun b' => g (b && b'))).
    auto.
Qed.

Lemma wsim_verify_then_write c fs vs id t n v :
  wsim (u_verify_then_write c fs vs id t n v) (verify_then_write c fs vs id t n v).
Proof.
  unfold u_verify_then_write, verify_then_write.
  destruct (has_cond_obligation fs id); [|apply wsim_of_w].
  destruct v as [z| | | | | |]; try constructor.
  pose proof (wsim_verify (mk_env fs vs) id (to_size c z) fs vs
    (fun ok => if ok then of_w (write_const c t n (VZ z)) else UErr FoundContradictingLength)
    (fun ok => if ok then write_const c t n (VZ z) else WErr FoundContradictingLength)) as Q.
  destruct (verify_cond _ _ _ _ _) as [[|]|]; apply Q; intros []; try constructor; apply wsim_of_w.
Qed.

Lemma wsim_fixed c fs vs id mem k t n v :
  wsim (u_write_fixed c fs vs id mem k t n v) (write_fixed c fs vs id mem k t n v).
Proof.
  unfold u_write_fixed, write_fixed. destruct (is_derived fs id).
  - destruct (derive_value c fs vs id t n); try constructor.
    apply wsim_bind; [apply wsim_wcheck|]. intros []. apply wsim_verify_then_write.
  - destruct (mem && _); [destruct (frozen_value _ _); [|constructor]|]; apply wsim_verify_then_write.
Qed.

Lemma wsim_verify_len c e l n : wsim (u_verify_len c e l n) (verify_len c e l n).
Proof.
  destruct l; simpl; [constructor|]. destruct (lookups e ids); simpl; [|constructor].
  constructor. destruct (_ =? n); constructor.
Qed.

Lemma writer_sim :
  (forall t c fs vs id mem k v, wsim (u_write c fs vs id mem k t v) (write_ty c fs vs id mem k t v)) /\
  (forall gs c fs vs ws, wsim (u_write_fields c fs vs gs ws) (write_fields c fs vs gs ws)) /\
  (forall al c fs vs id i v, wsim (u_write_alts c fs vs id al i v) (write_alts c fs vs id al i v)).
Proof.
  apply schema_mutind; cbn [u_write write_ty u_write_fields write_fields u_write_alts write_alts].
  - intros. apply wsim_fixed.
  - intros elt l b c fs vs id mem k v. destruct v; try constructor.
    apply wsim_bind; [apply wsim_verify_len|]. intros []. apply wsim_of_w.
  - intros gs IH c fs vs id mem k v. destruct v; try constructor. apply wsim_maperr; auto.
  - intros n gs IH c fs vs id mem k v. destruct v; try constructor.
    destruct (Nat.eqb _ _); [|constructor]. apply wsim_for. intros []; try constructor.
    apply wsim_maperr; auto.
  - intros gs IH recsz l b c fs vs id mem k v. destruct v; try constructor.
    apply wsim_bind; [apply wsim_verify_len|]. intros []. apply wsim_for. intros []; try constructor.
    apply wsim_maperr; auto.
  - intros b IH p ids c fs vs id mem k v. destruct (lookups _ ids); [|constructor]. constructor.
    destruct (p l), v; try constructor; auto.
  - intros g al IH c fs vs id mem k v. destruct v; try constructor.
    assert (Q : wsim (ubind (u_type (mk_env fs vs) g) (fun r =>
                match r with
                | Some j =>
                    if Nat.eqb j i then u_write_alts c fs vs id al i v
                    else UErr ValidationFailure
                | None => UErr TypeDeductionFailure
                end))
              (match deduce_type (mk_env fs vs) g with
              | Some (Some j) =>
                  if Nat.eqb j i then write_alts c fs vs id al i v
                  else WErr ValidationFailure
              | Some None => WErr TypeDeductionFailure
              | None => WStuck
              end)).
    { pose proof (wsim_type (mk_env fs vs) g (fun r =>
                match r with
                | Some j =>
                    if Nat.eqb j i then u_write_alts c fs vs id al i v
                    else UErr ValidationFailure
                | None => UErr TypeDeductionFailure
                end) (fun r =>
                match r with
                | Some j =>
                    if Nat.eqb j i then write_alts c fs vs id al i v
                    else WErr ValidationFailure
                | None => WErr TypeDeductionFailure
                end)) as Q.
      destruct (deduce_type _ g) as [[j|]|]; apply Q;
        (intros [j'|]; [destruct (Nat.eqb j' i)|]; try constructor; auto). }
    destruct g; auto.
  - intros c fs vs [|w ws]; constructor.
  - intros id t IHt k gs IH c fs vs [|w ws]; [constructor|]. apply wsim_bind.
    + apply wsim_maperr, wsim_bind; auto. destruct (_ || _); [constructor|apply wsim_wcheck].
    + intros []. auto.
  - constructor.
  - intros t IHt k al IH c fs vs id [|i] v; auto. apply wsim_bind; [apply wsim_wcheck|]. auto.
Qed.

Lemma wsim_run {E A} (H : host) (p : uprog E A) q : wsim p q -> honest H ->
  forall s o s' ev, urun H p s = (o, s', ev) ->
  (o <> Throw -> wrun replay_out q (flat_map write_answer ev) = (o, [], flat_map io_write ev)) /\
  (o = Throw -> exists o' st ch',
     wrun replay_out q (flat_map write_answer ev) = (o', st, flat_map io_write ev ++ ch')).
Proof.
  intros Hs (H1 & H2 & H3). induction Hs; simpl; intros s o s' ev R;
    try (injection R as <- <- <-; split; [auto|discriminate]).
  - destruct (h_write H s bs) as [[[|]|] s1].
    + destruct (urun H k s1) as [[o1 s2] ev1] eqn:Q. injection R as <- <- <-.
      destruct (IHHs _ _ _ _ Q) as [Q1 Q2]. simpl. split; intros Ho.
      * rewrite Q1; auto.
      * destruct (Q2 Ho) as (o' & st & ev' & ->). eauto.
    + injection R as <- <- <-. split; [auto|discriminate].
    + injection R as <- <- <-. split; [congruence|]. intros _. simpl. eauto.
  - specialize (H1 s f args). destruct (h_num H s f args) as [[z|] s1].
    + assert (z = _) by (apply H1; reflexivity); subst z.
      destruct (urun H (k (f args)) s1) as [[o1 s2] ev1] eqn:Q. injection R as <- <- <-. exact (IHHs _ _ _ _ Q).
    + injection R as <- <- <-. split; [congruence|]. intros _. simpl.
      destruct (wrun replay_out q []) as [[o' st] ev']. eauto.
  - specialize (H2 s p args). destruct (h_test H s p args) as [[z|] s1].
    + assert (z = _) by (apply H2; reflexivity); subst z.
      destruct (urun H (k (p args)) s1) as [[o1 s2] ev1] eqn:Q. injection R as <- <- <-. exact (IHHs _ _ _ _ Q).
    + injection R as <- <- <-. split; [congruence|]. intros _. simpl.
      destruct (wrun replay_out q []) as [[o' st] ev']. eauto.
  - specialize (H3 s p v). destruct (h_check H s p v) as [[z|] s1].
    + assert (z = _) by (apply H3; reflexivity); subst z.
      destruct (urun H (k (p v)) s1) as [[o1 s2] ev1] eqn:Q. injection R as <- <- <-. exact (IHHs _ _ _ _ Q).
    + injection R as <- <- <-. split; [congruence|]. intros _. simpl.
      destruct (wrun replay_out q []) as [[o' st] ev']. eauto.
Qed.

Lemma wsim_pure {E A} (S : ostream) (p : uprog E A) q : wsim p q ->
  forall s o s' ev, urun (pure_out S) p s = (o, s', ev) ->
  wrun S q s = (o, s', flat_map io_write ev).
Proof.
  induction 1; simpl; intros s o s' ev R; try (injection R as <- <- <-; auto).
  - destruct (o_write S s bs) as [[|] s1].
    + destruct (urun (pure_out S) k s1) as [[o1 s2] ev1] eqn:Q. injection R as <- <- <-.
      rewrite (IHwsim _ _ _ _ Q). reflexivity.
    + injection R as <- <- <-. reflexivity.
  - destruct (urun (pure_out S) (k _) s) as [[o1 s2] ev1] eqn:Q. injection R as <- <- <-. exact (IHwsim _ _ _ _ Q).
  - destruct (urun (pure_out S) (k _) s) as [[o1 s2] ev1] eqn:Q. injection R as <- <- <-. exact (IHwsim _ _ _ _ Q).
  - destruct (urun (pure_out S) (k _) s) as [[o1 s2] ev1] eqn:Q. injection R as <- <- <-. exact (IHwsim _ _ _ _ Q).
Qed.

(** ** The two casts *)

Lemma honest_read c fs H s o s' ev : honest H ->
  urun H (u_struct_cast c fs) s = (o, s', ev) ->
  (o <> Throw ->
   rrun replay grants (struct_cast c fs) (flat_map read_answer ev) = (o, [], flat_map io_read ev)) /\
  (o = Throw -> exists o' st ev',
   rrun replay grants (struct_cast c fs) (flat_map read_answer ev) = (o', st, flat_map io_read ev ++ ev')).
Proof. intros Hh. apply sim_run; auto. apply reader_sim. Qed.

Lemma honest_write c fs vs H s o s' ev : honest H ->
  urun H (u_stream_cast c fs vs) s = (o, s', ev) ->
  (o <> Throw ->
   wrun replay_out (stream_cast c fs vs) (flat_map write_answer ev) = (o, [], flat_map io_write ev)) /\
  (o = Throw -> exists o' st ch,
   wrun replay_out (stream_cast c fs vs) (flat_map write_answer ev) = (o', st, flat_map io_write ev ++ ch)).
Proof. intros Hh. apply wsim_run; auto. apply writer_sim. Qed.

Lemma pure_read c fs S s o s' ev : urun (pure_in S) (u_struct_cast c fs) s = (o, s', ev) ->
  rrun S grants (struct_cast c fs) s = (o, s', flat_map io_read ev).
Proof. apply sim_pure. apply reader_sim. Qed.

Lemma pure_write c fs vs S s o s' ev : urun (pure_out S) (u_stream_cast c fs vs) s = (o, s', ev) ->
  wrun S (stream_cast c fs vs) s = (o, s', flat_map io_write ev).
Proof. apply wsim_pure. apply writer_sim. Qed.
