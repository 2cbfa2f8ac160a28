(** Facts about programs, independent of what they parse. *)
From Coq Require Import ZifyBool ZifyNat.
From Verif Require Import Prog BytesFacts.

Section Reading.
Context {E A B : Type}.

Lemma rmem_bind (p : rprog E A) (f : A -> rprog E B) : forall bs,
  rmem (rbind p f) bs =
  match rmem p bs with
  | (Ok a, r) => rmem (f a) r
  | (Err e, r) => (Err e, r)
  | (UB, r) => (UB, r)
  | (Stuck, r) => (Stuck, r)
  | (Throw, r) => (Throw, r)
  end.
Proof.
  induction p; intros bs; simpl; auto.
  destruct (n <=? Z.of_nat (length bs)); auto.
Qed.

Lemma rmem_bind_ok (p : rprog E A) (f : A -> rprog E B) bs b rest :
  rmem (rbind p f) bs = (Ok b, rest) <->
  exists a mid, rmem p bs = (Ok a, mid) /\ rmem (f a) mid = (Ok b, rest).
Proof.
  rewrite rmem_bind. destruct (rmem p bs) as [[a|e| | |] r]; split; intros H;
    try discriminate; try (destruct H as (? & ? & H & _); discriminate).
  - eauto.
  - destruct H as (? & ? & H & H'). inversion H; subst; auto.
Qed.

(** What is left over is a suffix of the input. *)
Lemma rmem_suffix (p : rprog E A) : forall bs o rest,
  rmem p bs = (o, rest) -> exists used, bs = used ++ rest.
Proof.
  induction p; intros bs o rest; simpl; intros Hr;
    try (inversion Hr; subst; exists []; reflexivity).
  - destruct (n <=? Z.of_nat (length bs)) eqn:En.
    + apply H in Hr. destruct Hr as [used Hu].
      exists (firstn (Z.to_nat n) bs ++ used).
      rewrite <- app_assoc, <- Hu. symmetry. apply firstn_skipn.
    + inversion Hr; subst. exists []; reflexivity.
  - eauto.
Qed.

Lemma rmem_bytes (p : rprog E A) bs o rest :
  Forall byte_ok bs -> rmem p bs = (o, rest) -> Forall byte_ok rest.
Proof.
  intros Hb H. apply rmem_suffix in H. destruct H as [u ->].
  apply Forall_app in Hb. tauto.
Qed.

Lemma rmem_read_ok (n : Z) (e : E) (k : list Z -> rprog E A) bs a rest : 0 <= n ->
  rmem (RRead n e k) bs = (Ok a, rest) <->
  exists b r, bs = b ++ r /\ Z.of_nat (length b) = n /\ rmem (k b) r = (Ok a, rest).
Proof.
  intros Hn. simpl. destruct (Z.leb_spec n (Z.of_nat (length bs))) as [Hle|Hlt]; split.
  - intros H. exists (firstn (Z.to_nat n) bs), (skipn (Z.to_nat n) bs).
    rewrite firstn_skipn, firstn_length. repeat split; auto. lia.
  - intros (b & r & -> & Hl & H).
    replace (Z.to_nat n) with (length b) by lia.
    rewrite firstn_app, skipn_app, Nat.sub_diag, firstn_all, skipn_all; simpl.
    rewrite app_nil_r. auto.
  - intros H; discriminate.
  - intros (b & r & -> & Hl & H). rewrite app_length in Hlt. lia.
Qed.

(** No input turns into a thrown exception without an allocator. *)
Lemma rmem_no_throw (p : rprog E A) : forall bs, fst (rmem p bs) <> Throw.
Proof.
  induction p; intros bs; simpl; try discriminate; auto.
  destruct (n <=? Z.of_nat (length bs)); simpl; auto; discriminate.
Qed.

End Reading.

Lemma rmem_maperr {E E' A} (g : E -> E') (p : rprog E A) : forall bs,
  rmem (rmaperr g p) bs =
  match rmem p bs with
  | (Ok a, r) => (Ok a, r)
  | (Err e, r) => (Err (g e), r)
  | (UB, r) => (UB, r)
  | (Stuck, r) => (Stuck, r)
  | (Throw, r) => (Throw, r)
  end.
Proof.
  induction p; intros bs; simpl; auto.
  destruct (n <=? Z.of_nat (length bs)); auto.
Qed.

Lemma rmem_maperr_ok {E E' A} (g : E -> E') (p : rprog E A) bs a rest :
  rmem (rmaperr g p) bs = (Ok a, rest) <-> rmem p bs = (Ok a, rest).
Proof.
  rewrite rmem_maperr. destruct (rmem p bs) as [[| | | |] r]; split; intros H;
    try discriminate; inversion H; auto.
Qed.

(** A program parses exactly the encodings of the values satisfying [P]. *)
Definition parses {E A} (p : rprog E A) (P : A -> Prop) (enc : A -> list Z) : Prop :=
  forall bs a rest, Forall byte_ok bs ->
    (rmem p bs = (Ok a, rest) <-> P a /\ bs = enc a ++ rest).

Lemma parses_rrep {E A} (p : rprog E A) P enc : parses p P enc -> forall n,
  parses (rrep n p) (fun l => length l = n /\ Forall P l) (flat_map enc).
Proof.
  intros Hp. induction n; intros bs l rest Hb; simpl.
  - split.
    + intros H; inversion H; subst. auto.
    + intros [[Hl _] ->]. destruct l; [auto|discriminate].
  - rewrite rmem_bind_ok. split.
    + intros (a & mid & H1 & H2).
      pose proof (rmem_bytes _ _ _ _ Hb H1) as Hm.
      apply Hp in H1; auto. destruct H1 as [Ha ->].
      rewrite rmem_bind_ok in H2. destruct H2 as (l' & mid' & H2 & H3).
      simpl in H3. inversion H3; subst; clear H3.
      apply IHn in H2; auto. destruct H2 as [[Hl Hf] ->].
      simpl. rewrite app_assoc. auto.
    + intros [[Hl Hf] Hbs]. destruct l as [|a l]; [discriminate|].
      inversion Hf; subst. simpl in Hl. injection Hl as Hl.
      exists a, (flat_map enc l ++ rest). simpl in Hb. rewrite <- app_assoc in Hb.
      split.
      * apply Hp; [|split; auto].
        -- simpl. rewrite <- app_assoc. auto.
        -- simpl. rewrite <- app_assoc. auto.
      * rewrite rmem_bind_ok. exists l, rest. split; [|reflexivity].
        apply IHn; [|split; auto]. apply Forall_app in Hb. tauto.
Qed.

Lemma parses_maperr {E E' A} (g : E -> E') (p : rprog E A) P enc :
  parses p P enc -> parses (rmaperr g p) P enc.
Proof. intros H bs a rest Hb. rewrite rmem_maperr_ok. auto. Qed.

(** ** Reading past the end, truncation *)

Lemma rmem_app_ok {E A} (p : rprog E A) : forall bs a rest x,
  rmem p bs = (Ok a, rest) -> rmem p (bs ++ x) = (Ok a, rest ++ x).
Proof.
  induction p; intros bs a0 rest x; simpl; intros Hr; try discriminate.
  - inversion Hr; subst; auto.
  - destruct (Z.leb_spec n (Z.of_nat (length bs))); [|discriminate].
    rewrite app_length. destruct (Z.leb_spec n (Z.of_nat (length bs + length x))); [|lia].
    rewrite firstn_app, skipn_app.
    replace (Z.to_nat n - length bs)%nat with 0%nat by lia. simpl.
    rewrite app_nil_r. auto.
  - auto.
Qed.

(** Every request and every error of a program. *)
Fixpoint rall {E A} (PE PF : E -> Prop) (PR PA : Z -> Prop) (p : rprog E A) : Prop :=
  match p with
  | RErr e => PE e
  | RRead n e k => PR n /\ PF e /\ forall bs, rall PE PF PR PA (k bs)
  | RAlloc n k => PA n /\ rall PE PF PR PA k
  | _ => True
  end.

Section Rall.
Context {E : Type} (PE PF : E -> Prop) (PR PA : Z -> Prop).

Lemma rall_bind {A B} (p : rprog E A) (f : A -> rprog E B) :
  rall PE PF PR PA p -> (forall a, rall PE PF PR PA (f a)) ->
  rall PE PF PR PA (rbind p f).
Proof. intros Hp Hf. induction p; simpl in *; intuition. Qed.

Lemma rall_rrep {A} (p : rprog E A) n :
  rall PE PF PR PA p -> rall PE PF PR PA (rrep n p).
Proof.
  intros Hp. induction n; simpl; auto.
  apply rall_bind; auto. intros a. apply rall_bind; simpl; auto.
Qed.

Lemma rall_maperr {E' A} (g : E' -> E) (p : rprog E' A) :
  rall (fun e => PE (g e)) (fun e => PF (g e)) PR PA p ->
  rall PE PF PR PA (rmaperr g p).
Proof. induction p; simpl; intuition. Qed.

Lemma rall_impl {A} (PE' PF' : E -> Prop) (PR' PA' : Z -> Prop) (p : rprog E A) :
  (forall e, PE e -> PE' e) -> (forall e, PF e -> PF' e) ->
  (forall n, PR n -> PR' n) -> (forall n, PA n -> PA' n) ->
  rall PE PF PR PA p -> rall PE' PF' PR' PA' p.
Proof. induction p; simpl; intuition. Qed.

Lemma rmem_truncate {A} (p : rprog E A) : rall PE PF PR PA p ->
  forall bs a rest m, rmem p bs = (Ok a, rest) ->
  (m + length rest < length bs)%nat ->
  exists e r, rmem p (firstn m bs) = (Err e, r) /\ PF e.
Proof.
  induction p; simpl; intros Hall bs a0 rest m Hr Hm; try discriminate.
  - inversion Hr; subst. lia.
  - destruct Hall as (_ & HF & Hall).
    destruct (Z.leb_spec n (Z.of_nat (length bs))); [|discriminate].
    destruct (Z.leb_spec n (Z.of_nat (length (firstn m bs)))).
    + rewrite firstn_firstn, skipn_firstn_comm, firstn_length in *.
      replace (Nat.min (Z.to_nat n) m) with (Z.to_nat n) by lia.
      eapply H; eauto. rewrite skipn_length. lia.
    + eauto.
  - destruct Hall. eauto.
Qed.

(** An error that does not come from the end of the input does not depend on
    what follows. *)
Lemma rmem_app_err {A} (p : rprog E A) : rall PE PF PR PA p ->
  forall bs e rest x, rmem p bs = (Err e, rest) -> ~ PF e ->
  rmem p (bs ++ x) = (Err e, rest ++ x).
Proof.
  induction p; simpl; intros Hall bs a0 rest x Hr Hn; try discriminate.
  - inversion Hr; subst; auto.
  - destruct Hall as (_ & HF & Hall).
    destruct (Z.leb_spec n (Z.of_nat (length bs))).
    + rewrite app_length. destruct (Z.leb_spec n (Z.of_nat (length bs + length x))); [|lia].
      rewrite firstn_app, skipn_app.
      replace (Z.to_nat n - length bs)%nat with 0%nat by lia. simpl.
      rewrite app_nil_r. auto.
    + inversion Hr; subst. contradiction.
  - destruct Hall. auto.
Qed.

(** ** Runs on arbitrary streams *)

Lemma rrun_all {A} (S : istream) alloc (p : rprog E A) : rall PE PF PR PA p ->
  forall s o s' ev, rrun S alloc p s = (o, s', ev) ->
  (forall n d, In (EvRead n d) ev -> PR n) /\
  (forall n, In (EvAlloc n) ev -> PA n) /\
  (forall e, o = Err e ->
     (PE e /\ forall n, ~ In (EvRead n None) ev) \/
     (PF e /\ exists n ev', ev = ev' ++ [EvRead n None])).
Proof.
  induction p; simpl; intros Hall s o s' ev Hr;
    try (inversion Hr; subst; simpl; split; [tauto|split; [tauto|]];
         intros e0 He; inversion He; subst; left; split; auto; intros ? []).
  - destruct Hall as (HR & HF & Hall).
    destruct (i_read S s n) as [[bs|] s1].
    + destruct (rrun S alloc (k bs) s1) as [[o1 s2] ev1] eqn:Er.
      inversion Hr; subst. apply H in Er; auto. destruct Er as (H1 & H2 & H3).
      split; [|split].
      * intros n' d [Hin|Hin]; [inversion Hin; subst; auto|eauto].
      * intros n' [Hin|Hin]; [discriminate|eauto].
      * intros e' He. destruct (H3 e' He) as [[G1 G2]|[G1 (n' & ev' & G2)]].
        -- left. split; auto. intros n' [Hin|Hin]; [discriminate|]. eapply G2; eauto.
        -- right. split; auto. subst. exists n', (EvRead n (Some bs) :: ev'). auto.
    + inversion Hr; subst. split; [|split].
      * intros n' d [Hin|[]]. inversion Hin; subst; auto.
      * intros n' [Hin|[]]. discriminate.
      * intros e' He. inversion He; subst. right. split; auto. exists n, []. auto.
  - destruct Hall as [HA Hall]. destruct (alloc n).
    + destruct (rrun S alloc p s) as [[o1 s2] ev1] eqn:Er.
      inversion Hr; subst. eapply IHp in Er; eauto. destruct Er as (H1 & H2 & H3).
      split; [|split].
      * intros n' d [Hin|Hin]; [discriminate|eauto].
      * intros n' [Hin|Hin]; [inversion Hin; subst; auto|eauto].
      * intros e' He. destruct (H3 e' He) as [[G1 G2]|[G1 (n' & ev' & G2)]].
        -- left. split; auto. intros n' [Hin|Hin]; [discriminate|]. eapply G2; eauto.
        -- right. split; auto. subst. exists n', (EvAlloc n :: ev'). auto.
    + inversion Hr; subst. split; [|split].
      * intros n' d [Hin|[]]. discriminate.
      * intros n' [Hin|[]]. inversion Hin; subst; auto.
      * intros; discriminate.
Qed.

End Rall.

(** A refused read is always an error. *)
Lemma rrun_refused {E A} (S : istream) alloc (p : rprog E A) :
  forall s o s' ev n, rrun S alloc p s = (o, s', ev) -> In (EvRead n None) ev ->
  exists e, o = Err e.
Proof.
  induction p; simpl; intros s o s' ev m Hr Hin; try (inversion Hr; subst; simpl in Hin; tauto).
  - destruct (i_read S s n) as [[bs|] s1].
    + destruct (rrun S alloc (k bs) s1) as [[o1 s2] ev1] eqn:Er.
      inversion Hr; subst. destruct Hin as [Hin|Hin]; [discriminate|]. eauto.
    + inversion Hr; eauto.
  - destruct (alloc n).
    + destruct (rrun S alloc p s) as [[o1 s2] ev1] eqn:Er.
      inversion Hr; subst. destruct Hin as [Hin|Hin]; [discriminate|]. eauto.
    + inversion Hr; subst. destruct Hin as [Hin|[]]. discriminate.
Qed.

Lemma rrun_bind {E A B} (S : istream) alloc (p : rprog E A) (f : A -> rprog E B) :
  forall s, rrun S alloc (rbind p f) s =
  match rrun S alloc p s with
  | (Ok a, s1, ev1) =>
      match rrun S alloc (f a) s1 with (o, s2, ev2) => (o, s2, ev1 ++ ev2) end
  | (Err e, s1, ev1) => (Err e, s1, ev1)
  | (UB, s1, ev1) => (UB, s1, ev1)
  | (Stuck, s1, ev1) => (Stuck, s1, ev1)
  | (Throw, s1, ev1) => (Throw, s1, ev1)
  end.
Proof.
  induction p; intros s; simpl; auto.
  - destruct (rrun S alloc (f a) s) as [[o1 s1] ev1]. auto.
  - destruct (i_read S s n) as [[bs|] s1]; auto. rewrite H.
    destruct (rrun S alloc (k bs) s1) as [[[a|e'| | |] s2] ev1]; auto.
    destruct (rrun S alloc (f a) s2) as [[o s3] ev2]; auto.
  - destruct (alloc n); auto. rewrite IHp.
    destruct (rrun S alloc p s) as [[[a|e'| | |] s2] ev1]; auto.
    destruct (rrun S alloc (f a) s2) as [[o s3] ev2]; auto.
Qed.

Lemma rrun_maperr {E E' A} (g : E -> E') (S : istream) alloc (p : rprog E A) :
  forall s, rrun S alloc (rmaperr g p) s =
  match rrun S alloc p s with
  | (Ok a, s1, ev1) => (Ok a, s1, ev1)
  | (Err e, s1, ev1) => (Err (g e), s1, ev1)
  | (UB, s1, ev1) => (UB, s1, ev1)
  | (Stuck, s1, ev1) => (Stuck, s1, ev1)
  | (Throw, s1, ev1) => (Throw, s1, ev1)
  end.
Proof.
  induction p; intros s; simpl; auto.
  - destruct (i_read S s n) as [[bs|] s1]; auto. rewrite H.
    destruct (rrun S alloc (k bs) s1) as [[[a|e'| | |] s2] ev1]; auto.
  - destruct (alloc n); auto. rewrite IHp.
    destruct (rrun S alloc p s) as [[[a|e'| | |] s2] ev1]; auto.
Qed.

(** ** Extensional equality of programs *)

Inductive req {E A} : rprog E A -> rprog E A -> Prop :=
| req_ret a : req (RRet a) (RRet a)
| req_err e : req (RErr e) (RErr e)
| req_ub : req RUB RUB
| req_stuck : req RStuck RStuck
| req_read n e k k' : (forall bs, req (k bs) (k' bs)) -> req (RRead n e k) (RRead n e k')
| req_alloc n k k' : req k k' -> req (RAlloc n k) (RAlloc n k').

Lemma req_refl {E A} (p : rprog E A) : req p p.
Proof. induction p; constructor; auto. Qed.

Lemma req_bind {E A B} (p p' : rprog E A) (f f' : A -> rprog E B) :
  req p p' -> (forall a, req (f a) (f' a)) -> req (rbind p f) (rbind p' f').
Proof. intros H Hf. induction H; simpl; try constructor; auto. Qed.

Lemma req_maperr {E E' A} (g : E -> E') (p p' : rprog E A) :
  req p p' -> req (rmaperr g p) (rmaperr g p').
Proof. induction 1; simpl; constructor; auto. Qed.

Lemma req_rrep {E A} n (p p' : rprog E A) : req p p' -> req (rrep n p) (rrep n p').
Proof.
  intros H. induction n; simpl; [constructor|].
  apply req_bind; auto. intros a. apply req_bind; auto. intros; constructor.
Qed.

Lemma req_rrun {E A} S alloc (p p' : rprog E A) : req p p' ->
  forall s, rrun S alloc p s = rrun S alloc p' s.
Proof.
  induction 1; intros s; simpl; auto.
  - destruct (i_read S s n) as [[bs|] s1]; auto. rewrite H0. auto.
  - destruct (alloc n); auto. rewrite IHreq. auto.
Qed.

Lemma req_rmem {E A} (p p' : rprog E A) : req p p' ->
  forall bs, rmem p bs = rmem p' bs.
Proof.
  induction 1; intros bs; simpl; auto.
  destruct (n <=? Z.of_nat (length bs)); auto.
Qed.

(** ** Streams that hold a byte sequence *)

Lemma rrun_conforms {E A} (PE PF : E -> Prop) PA (S : istream) good view lim alloc (p : rprog E A) :
  conforms S good view lim -> rall PE PF (fun n => 0 <= n <= lim) PA p ->
  forall s o s' ev, good s -> rrun S alloc p s = (o, s', ev) -> o <> Throw ->
  fst (rmem p (view s)) = o /\
  (forall a, o = Ok a -> good s' /\ view s' = snd (rmem p (view s))).
Proof.
  intros Hc. induction p; simpl; intros Hall s o s' ev Hg Hr Ht;
    try (inversion Hr; subst; split; auto; intros; congruence).
  - destruct Hall as (HR & HF & Hall).
    specialize (Hc s n Hg HR). destruct (Z.leb_spec n (Z.of_nat (length (view s)))).
    + destruct Hc as (s1 & Hi & Hg1 & Hv). rewrite Hi in Hr.
      destruct (rrun S alloc (k _) s1) as [[o1 s2] ev1] eqn:Er.
      inversion Hr; subst. rewrite <- Hv. eauto.
    + destruct Hc as (s1 & Hi). rewrite Hi in Hr. inversion Hr; subst.
      split; auto. intros; discriminate.
  - destruct Hall as [HA Hall]. destruct (alloc n).
    + destruct (rrun S alloc p s) as [[o1 s2] ev1] eqn:Er.
      inversion Hr; subst. eauto.
    + inversion Hr; subst. congruence.
Qed.

Lemma rrun_conforms_two {E A} (PE PF : E -> Prop) PA S1 good1 view1 S2 good2 view2 lim alloc
  (p : rprog E A) :
  conforms S1 good1 view1 lim -> conforms S2 good2 view2 lim ->
  rall PE PF (fun n => 0 <= n <= lim) PA p ->
  forall s1 s2 o1 s1' ev1 o2 s2' ev2, good1 s1 -> good2 s2 -> view1 s1 = view2 s2 ->
  rrun S1 alloc p s1 = (o1, s1', ev1) -> rrun S2 alloc p s2 = (o2, s2', ev2) ->
  o1 = o2 /\ ev1 = ev2 /\
  (forall a, o1 = Ok a -> good1 s1' /\ good2 s2' /\ view1 s1' = view2 s2').
Proof.
  intros Hc1 Hc2. induction p; simpl; intros Hall s1 s2 o1 s1' ev1 o2 s2' ev2 Hg1 Hg2 Hv Hr1 Hr2;
    try (inversion Hr1; inversion Hr2; subst; repeat split; auto; intros; congruence).
  - destruct Hall as (HR & HF & Hall).
    specialize (Hc1 s1 n Hg1 HR). specialize (Hc2 s2 n Hg2 HR). rewrite Hv in Hc1.
    destruct (Z.leb_spec n (Z.of_nat (length (view2 s2)))).
    + destruct Hc1 as (t1 & Hi1 & Hh1 & Hv1). destruct Hc2 as (t2 & Hi2 & Hh2 & Hv2).
      rewrite Hi1 in Hr1. rewrite Hi2 in Hr2.
      destruct (rrun S1 alloc (k _) t1) as [[a1 b1] e1] eqn:Er1.
      destruct (rrun S2 alloc (k _) t2) as [[a2 b2] e2] eqn:Er2.
      inversion Hr1; inversion Hr2; subst.
      destruct (H _ (Hall _) t1 t2 _ _ _ _ _ _ Hh1 Hh2 (eq_trans Hv1 (eq_sym Hv2)) Er1 Er2)
        as (G1 & G2 & G3).
      subst. auto.
    + destruct Hc1 as (t1 & Hi1). destruct Hc2 as (t2 & Hi2).
      rewrite Hi1 in Hr1. rewrite Hi2 in Hr2.
      inversion Hr1; inversion Hr2; subst. split; [|split]; auto; intros; discriminate.
  - destruct Hall as [HA Hall]. destruct (alloc n).
    + destruct (rrun S1 alloc p s1) as [[a1 b1] e1] eqn:Er1.
      destruct (rrun S2 alloc p s2) as [[a2 b2] e2] eqn:Er2.
      inversion Hr1; inversion Hr2; subst.
      destruct (IHp Hall s1 s2 _ _ _ _ _ _ Hg1 Hg2 Hv Er1 Er2) as (G1 & G2 & G3). subst. auto.
    + inversion Hr1; inversion Hr2; subst. split; [|split]; auto; intros; discriminate.
Qed.

Lemma rrun_total {E A} (S : istream) (p : rprog E A) s :
  exists o s' ev, rrun S (fun _ => true) p s = (o, s', ev) /\ o <> Throw.
Proof.
  revert s. induction p; intros s; simpl; try (do 3 eexists; split; [reflexivity|discriminate]).
  - destruct (i_read S s n) as [[bs|] s1].
    + destruct (H bs s1) as (o & s' & ev & Hr & Ho). rewrite Hr. eauto.
    + do 3 eexists; split; [reflexivity|discriminate].
  - destruct (IHp s) as (o & s' & ev & Hr & Ho). rewrite Hr. eauto.
Qed.

(** ** Writing *)

Lemma wmem_bind {E A B} (p : wprog E A) (f : A -> wprog E B) :
  wmem (wbind p f) =
  match wmem p with
  | (Ok a, out) => match wmem (f a) with (o, out') => (o, out ++ out') end
  | (Err e, out) => (Err e, out)
  | (UB, out) => (UB, out)
  | (Stuck, out) => (Stuck, out)
  | (Throw, out) => (Throw, out)
  end.
Proof.
  induction p; simpl; auto.
  - destruct (wmem (f a)); auto.
  - rewrite IHp. destruct (wmem p) as [[a|e'| | |] out]; auto.
    destruct (wmem (f a)); rewrite app_assoc; auto.
Qed.

Lemma wmem_maperr {E E' A} (g : E -> E') (p : wprog E A) :
  wmem (wmaperr g p) =
  match wmem p with
  | (Ok a, out) => (Ok a, out)
  | (Err e, out) => (Err (g e), out)
  | (UB, out) => (UB, out)
  | (Stuck, out) => (Stuck, out)
  | (Throw, out) => (Throw, out)
  end.
Proof.
  induction p; simpl; auto. rewrite IHp. destruct (wmem p) as [[| | | |] out]; auto.
Qed.

Lemma wmem_maperr_ok {E E' A} (g : E -> E') (p : wprog E A) a out :
  wmem (wmaperr g p) = (Ok a, out) <-> wmem p = (Ok a, out).
Proof.
  rewrite wmem_maperr. destruct (wmem p) as [[| | | |] r]; split; intros H;
    try discriminate; inversion H; auto.
Qed.

Lemma wmem_bind_ok {E A B} (p : wprog E A) (f : A -> wprog E B) b out :
  wmem (wbind p f) = (Ok b, out) <->
  exists a o1 o2, wmem p = (Ok a, o1) /\ wmem (f a) = (Ok b, o2) /\ out = o1 ++ o2.
Proof.
  rewrite wmem_bind. destruct (wmem p) as [[a|e| | |] o1]; split; intros H;
    try discriminate; try (destruct H as (? & ? & ? & H & _); discriminate).
  - destruct (wmem (f a)) as [o o2] eqn:Ef. inversion H; subst. eauto 6.
  - destruct H as (a' & o1' & o2 & H1 & H2 & ->). inversion H1; subst. rewrite H2. auto.
Qed.

Lemma wmem_no_throw {E A} (p : wprog E A) : fst (wmem p) <> Throw.
Proof. induction p; simpl; try discriminate. destruct (wmem p); auto. Qed.

Lemma wmem_wfor_put {E} (e : E) (l : list (list Z)) :
  wmem (wfor l (fun bs => WWrite bs e (WRet tt))) = (Ok tt, concat l).
Proof. induction l; simpl; auto. rewrite IHl. auto. Qed.

Fixpoint wall {E A} (PE PF : E -> Prop) (p : wprog E A) : Prop :=
  match p with
  | WErr e => PE e
  | WWrite bs e k => PF e /\ wall PE PF k
  | _ => True
  end.

Section Wall.
Context {E : Type} (PE PF : E -> Prop).

Lemma wall_bind {A B} (p : wprog E A) (f : A -> wprog E B) :
  wall PE PF p -> (forall a, wall PE PF (f a)) -> wall PE PF (wbind p f).
Proof. intros Hp Hf. induction p; simpl in *; intuition. Qed.

Lemma wall_maperr {E' A} (g : E' -> E) (p : wprog E' A) :
  wall (fun e => PE (g e)) (fun e => PF (g e)) p -> wall PE PF (wmaperr g p).
Proof. induction p; simpl; intuition. Qed.

Lemma wall_wfor {A} (l : list A) (f : A -> wprog E unit) :
  (forall a, wall PE PF (f a)) -> wall PE PF (wfor l f).
Proof. intros Hf. induction l; simpl; auto. apply wall_bind; auto. Qed.

(** On any output stream: what was handed over is a prefix of what a healthy
    stream gets, and only a refusal gives the refusal's error. *)
Lemma wrun_prefix {A} (S : ostream) (p : wprog E A) : wall PE PF p ->
  forall s o s' ch, wrun S p s = (o, s', ch) ->
  (exists tail, snd (wmem p) = concat (map fst ch) ++ tail) /\
  ((forall bs, ~ In (bs, false) ch) /\ (o, concat (map fst ch)) = wmem p /\
     (forall e, o = Err e -> PE e) \/
   (exists ch' bs e, ch = ch' ++ [(bs, false)] /\ (forall b, ~ In (b, false) ch') /\
      o = Err e /\ PF e)).
Proof.
  induction p; simpl; intros Hall s o s' ch Hr;
    try (inversion Hr; subst; simpl; split; [exists []; reflexivity|];
         left; split; [intros ? []|]; split; [reflexivity|]; intros e0 He;
         inversion He; subst; auto).
  destruct Hall as [HF Hall]. destruct (o_write S s bs) as [[|] s1].
  - destruct (wrun S p s1) as [[o1 s2] ch1] eqn:Er. inversion Hr; subst.
    destruct (IHp Hall _ _ _ _ Er) as [[tail Ht] Hd].
    destruct (wmem p) as [o' out']. simpl in *. split.
    + exists tail. rewrite Ht, app_assoc. auto.
    + destruct Hd as [(H1 & H2 & H3)|(ch' & b & e' & H1 & H2 & H3 & H4)].
      * left. split; [|split]; auto.
        -- intros b [Hin|Hin]; [discriminate|]. eapply H1; eauto.
        -- inversion H2; subst. auto.
      * right. exists ((bs, true) :: ch'), b, e'. subst. repeat split; auto.
        intros b' [Hin|Hin]; [discriminate|]. eapply H2; eauto.
  - inversion Hr; subst. destruct (wmem p) as [o' out']. simpl. split.
    + exists out'. rewrite app_nil_r. auto.
    + right. exists [], bs, e. repeat split; auto.
Qed.

End Wall.
