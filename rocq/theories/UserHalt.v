(** A write that fails hears exactly what UserHaltSpec.v says. *)
From Coq Require Import ZifyBool ZifyNat.
From Verif Require Import UserHaltSpec Typing BytesFacts ProgFacts ReadFacts ReadMore Safety.
From Verif Require Import WriteFacts WriteMain CallFacts UserWrite ExactFacts WriteErr UserLog UserFail.

(** The program fails with [x] after hearing [log]. *)
Fixpoint ufail {E A} (p : uprog E A) (x : E) (log : list said) : Prop :=
  match p with
  | UErr e => e = x /\ log = []
  | URet _ | UUB | UStuck | URead _ _ _ | UAlloc _ _ => False
  | UWrite bs e k =>
      (e = x /\ log = [SRefused bs]) \/ exists log', log = SWrite bs :: log' /\ ufail k x log'
  | UNum f args k => exists z log', log = SNum f args z :: log' /\ ufail (k z) x log'
  | UTest p args k => exists b log', log = STest p args b :: log' /\ ufail (k b) x log'
  | UCheck p v k => exists b log', log = SCheck p v b :: log' /\ ufail (k b) x log'
  end.

Lemma ufail_bind {E A B} (p : uprog E A) (f : A -> uprog E B) x : forall log,
  ufail (ubind p f) x log <->
  ufail p x log \/ exists a l1 l2, log = l1 ++ l2 /\ ucan p a l1 /\ ufail (f a) x l2.
Proof.
  assert (Q : forall (q : uprog E A) (y : said) log, (forall l, ufail (ubind q f) x l <->
      ufail q x l \/ exists a l1 l2, l = l1 ++ l2 /\ ucan q a l1 /\ ufail (f a) x l2) ->
    ((exists l', log = y :: l' /\ ufail (ubind q f) x l') <->
     (exists l', log = y :: l' /\ ufail q x l') \/
     exists a l1 l2, log = l1 ++ l2 /\ (exists l', l1 = y :: l' /\ ucan q a l') /\ ufail (f a) x l2)).
  { intros q y log H. split.
    - intros (l' & -> & H1). apply H in H1. destruct H1 as [H1|(a & l1 & l2 & -> & H1 & H2)]; [eauto|].
      right. exists a, (y :: l1), l2. repeat split; eauto.
    - intros [(l' & -> & H1)|(a & l1 & l2 & -> & (l' & -> & H1) & H2)].
      + exists l'. split; auto. apply H; auto.
      + exists (l' ++ l2). split; auto. apply H. right. eauto 6. }
  induction p; intros log; simpl.
  - split.
    + intros H. right. exists a, [], log. auto.
    + intros [[]|(a' & l1 & l2 & -> & [-> ->] & H)]. exact H.
  - split; [auto|]. intros [H|(? & ? & ? & _ & [] & _)]. auto.
  - split; [tauto|intros [[]|(? & ? & ? & _ & [] & _)]].
  - split; [tauto|intros [[]|(? & ? & ? & _ & [] & _)]].
  - split; [tauto|intros [[]|(? & ? & ? & _ & [] & _)]].
  - split; [tauto|intros [[]|(? & ? & ? & _ & [] & _)]].
  - pose proof (Q p (SWrite bs) log IHp). tauto.
  - split.
    + intros (z & H1). apply (Q (k z)) in H1; auto. destruct H1 as [H1|(a & l1 & l2 & -> & H1 & H2)]; [eauto|].
      right. exists a, l1, l2. repeat split; eauto.
    + intros [(z & H1)|(a & l1 & l2 & -> & (z & H1) & H2)]; exists z; apply (Q (k z)); auto. right. eauto 6.
  - split.
    + intros (z & H1). apply (Q (k z)) in H1; auto. destruct H1 as [H1|(a & l1 & l2 & -> & H1 & H2)]; [eauto|].
      right. exists a, l1, l2. repeat split; eauto.
    + intros [(z & H1)|(a & l1 & l2 & -> & (z & H1) & H2)]; exists z; apply (Q (k z)); auto. right. eauto 6.
  - split.
    + intros (z & H1). apply (Q (k z)) in H1; auto. destruct H1 as [H1|(a & l1 & l2 & -> & H1 & H2)]; [eauto|].
      right. exists a, l1, l2. repeat split; eauto.
    + intros [(z & H1)|(a & l1 & l2 & -> & (z & H1) & H2)]; exists z; apply (Q (k z)); auto. right. eauto 6.
Qed.

Lemma ufail_then {E B} (p : uprog E unit) (f : unit -> uprog E B) x (P F G : list said -> Prop) :
  (forall l, ucan p tt l <-> P l) -> (forall l, ufail p x l <-> F l) ->
  (forall l, ufail (f tt) x l <-> G l) ->
  forall log, ufail (ubind p f) x log <-> F log \/ exists l1 l2, log = l1 ++ l2 /\ P l1 /\ G l2.
Proof.
  intros HP HF HG log. rewrite ufail_bind, HF. split.
  - intros [H|([] & l1 & l2 & -> & H1 & H2)]; [auto|]. right. exists l1, l2. rewrite <- HP, <- HG. auto.
  - intros [H|(l1 & l2 & -> & H1 & H2)]; [auto|]. right. exists tt, l1, l2. rewrite HP, HG. auto.
Qed.

Lemma ufail_maperr {E E' A} (g : E -> E') (p : uprog E A) x : forall log,
  ufail (umaperr g p) x log <-> exists y, x = g y /\ ufail p y log.
Proof.
  induction p; intros log; simpl.
  - split; [tauto|intros (? & _ & [])].
  - split; [intros (<- & ->); eauto|]. intros (y & -> & <- & ->). auto.
  - split; [tauto|intros (? & _ & [])].
  - split; [tauto|intros (? & _ & [])].
  - split; [tauto|intros (? & _ & [])].
  - split; [tauto|intros (? & _ & [])].
  - split.
    + intros [(<- & ->)|(l' & -> & H1)]; [eauto 8|].
      apply IHp in H1. destruct H1 as (y & -> & H1). exists y. split; auto. right. eauto 9.
    + intros (y & -> & [(<- & ->)|(l' & -> & H1)]); [auto|].
      right. exists l'. split; auto. apply IHp; eauto.
  - split; [intros (z & l' & -> & H1)|intros (y & -> & z & l' & -> & H1)].
    + apply H in H1. destruct H1 as (y & -> & H1). exists y. split; auto. eauto.
    + exists z, l'. split; auto. apply H; eauto.
  - split; [intros (z & l' & -> & H1)|intros (y & -> & z & l' & -> & H1)].
    + apply H in H1. destruct H1 as (y & -> & H1). exists y. split; auto. eauto.
    + exists z, l'. split; auto. apply H; eauto.
  - split; [intros (z & l' & -> & H1)|intros (y & -> & z & l' & -> & H1)].
    + apply H in H1. destruct H1 as (y & -> & H1). exists y. split; auto. eauto.
    + exists z, l'. split; auto. apply H; eauto.
Qed.

Lemma ufail_for {E} xs (f : val -> uprog E unit) x (P F : val -> list said -> Prop) :
  Forall (fun y => (forall l, ucan (f y) tt l <-> P y l) /\ (forall l, ufail (f y) x l <-> F y l)) xs ->
  forall log, ufail (ufor xs f) x log <-> halts_in P F xs log.
Proof.
  unfold halts_in. induction 1 as [|y xs [Hc Hf] HF IH]; intros log; simpl.
  - split; [tauto|]. intros ([|] & ? & ? & ? & ? & E1 & _); discriminate.
  - rewrite (ufail_then (f y) (fun _ => ufor xs f) x (P y) (F y) _ Hc Hf IH). split.
    + intros [H|(l1 & l2 & -> & H1 & before & z & after & l3 & l4 & -> & T & H2 & ->)].
      * exists [], y, xs, [], log. simpl. auto.
      * exists (y :: before), z, after, (l1 ++ l3), l4. simpl. rewrite app_assoc. repeat split; auto. eauto 6.
    + intros ([|b before] & z & after & l3 & l4 & E1 & T & H2 & ->); simpl in *; injection E1 as -> ->.
      * subst l3. auto.
      * right. destruct T as (l1 & l2 & -> & T1 & T2). exists l1, (l2 ++ l4). rewrite app_assoc.
        repeat split; auto. exists before, z, after, l2, l4. auto.
Qed.

(** The only way a step without user code fails. *)
Fixpoint wexh {A} (p : wprog reason A) : Prop :=
  match p with WErr _ => False | WWrite _ e k => e = BufferExhaustion /\ wexh k | _ => True end.

Lemma ufail_of_w (p : wprog reason unit) : forall l, wdone p -> follows p l -> wexh p ->
  forall x log, ufail (of_w p) x log <-> x = BufferExhaustion /\ cut l log.
Proof.
  unfold cut. induction p as [[]| | | |bs e k IH]; simpl; intros l D F X x log; try tauto.
  - subst. split; [tauto|]. intros (_ & [|] & ? & ? & E1 & _); discriminate.
  - destruct l as [|b l]; [tauto|]. destruct F as [-> F]. destruct X as [-> X]. split.
    + intros [[<- ->]|(l' & -> & H)].
      * split; auto. exists [], bs, l. auto.
      * apply (IH l D F X) in H. destruct H as (-> & d & b' & r & -> & ->). split; auto.
        exists (bs :: d), b', r. auto.
    + intros (-> & d & b' & r & E1 & ->). destruct d as [|d0 d]; simpl in *; injection E1 as -> ->; [auto|].
      right. eexists. split; [reflexivity|]. apply (IH _ D F X). split; auto. exists d, b', r. auto.
Qed.

Lemma wexh_puts l : wexh (wfor l put).
Proof. induction l; simpl; auto. Qed.

Lemma wexh_prefix bs n : wexh (put_prefix bs n).
Proof. unfold put_prefix. destruct (Nat.ltb _ _); simpl; auto. Qed.

Lemma wexh_const c t n v : wexh (write_const c t n v).
Proof.
  unfold write_const. destruct (is_host_order c); [destruct (store _ _ _); simpl; auto using wexh_prefix|].
  destruct t; try (destruct v; simpl; auto using wexh_prefix; fail);
    repeat match goal with |- context [match ?x with _ => _ end] => destruct x end;
    simpl; auto using wexh_prefix, wexh_puts.
Qed.

Lemma wexh_var c elt l : wexh (write_var c elt l).
Proof.
  unfold write_var. destruct (is_host_order c).
  - destruct (sequence _); simpl; auto. destruct (c_cx c); [apply wexh_puts|simpl; auto].
  - destruct (sequence _); simpl; auto. apply wexh_puts.
Qed.

Lemma ufail_wcheck t k v x log : constr_ok t k = true -> has_ty t v ->
  (ufail (u_wcheck k v) x log <-> refused k v log /\ x = ValidationFailure).
Proof.
  intros Hk Hv. pose proof (check_violates t k v Hk Hv) as Hc. unfold u_wcheck. rewrite ufail_bind.
  assert (Q : (forall f, k <> CFun f) ->
    ((ufail (u_holds k v) x log \/
      exists a l1 l2, log = l1 ++ l2 /\ ucan (u_holds k v) a l1 /\
        ufail (if a then URet tt else UErr ValidationFailure) x l2) <->
     (log = [] /\ violates k v) /\ x = ValidationFailure)).
  { intros Hf. assert (u_holds k v = match check k v with
      | CTrue => URet true | CFalse => URet false | CUndef => UUB | CStuck => UStuck end) as ->.
    { destruct k; auto. elim (Hf f eq_refl). }
    split.
    - intros [H|(a & l1 & l2 & -> & H1 & H2)].
      + destruct (check k v); simpl in H; tauto.
      + rewrite <- Hc. destruct (check k v); simpl in H1; try tauto; destruct H1 as (<- & ->); simpl in H2; try tauto.
        destruct H2 as (<- & ->). auto.
    - intros ([-> H] & ->). apply Hc in H. rewrite H. right. exists false, [], []. simpl. auto 7. }
  destruct k; try (apply Q; discriminate).
  simpl. split.
  - intros [(b & l' & _ & [])|(a & l1 & l2 & -> & (b & l' & -> & <- & ->) & H2)].
    destruct b; simpl in H2; [tauto|]. destruct H2 as (<- & ->). auto.
  - intros (-> & ->). right. exists false, [SCheck f v false], []. simpl. repeat split; auto.
    exists false, []. auto.
Qed.

Lemma ufail_len c e l n x log : len_value e l ->
  (ufail (u_verify_len c e l (Z.of_nat n)) x log <->
   x = FoundContradictingLength /\ misjudged c e l n log).
Proof.
  destruct l; simpl; [tauto|]. intros [vs Hv]. rewrite Hv. simpl. split.
  - intros (z & l' & -> & H). destruct (Z.eqb_spec (to_size c z) (Z.of_nat n)) as [E|E]; simpl in H; [tauto|].
    destruct H as [<- ->]. split; auto. exists vs, z. repeat split; auto.
  - intros (-> & args & z & E & -> & Hn). inversion E; subst args. exists z, []. split; auto.
    destruct (Z.eqb_spec (to_size c z) (Z.of_nat n)) as [E'|]; simpl; auto.
Qed.

Lemma ufail_ladder e brs x : forall log, ~ ufail (u_ladder e brs) x log.
Proof.
  induction brs as [|[p ids] brs IH]; simpl; intros log H; [tauto|].
  destruct (lookups e ids); simpl in H; [|tauto]. destruct H as ([|] & l' & _ & H); simpl in H; [tauto|].
  apply ufail_bind in H. destruct H as [H|(? & ? & ? & _ & _ & [])]. eapply IH; eauto.
Qed.

Lemma ufail_type e g x log : ~ ufail (u_type e g) x log.
Proof.
  destruct g; simpl; intros H.
  - destruct (lookup e id) as [[z| | | | | |]|]; simpl in H; tauto.
  - destruct (lookups e ids); simpl in H; [|tauto]. destruct H as (? & ? & _ & []).
  - eapply ufail_ladder; eauto.
Qed.

Lemma ucan_ladder_none e seen brs : covers seen e ->
  forallb (fun b => all_in (snd b) seen) brs = true ->
  forall log, ucan (u_ladder e brs) None log <-> none_held e brs log.
Proof.
  intros Hc. induction brs as [|[p ids] brs IH]; simpl; intros H log; [tauto|].
  apply andb_true_iff in H. destruct H as [H1 H2].
  destruct (covers_lookups _ _ _ Hc H1) as [vs Hv]. rewrite Hv. simpl. split.
  - intros ([|] & l' & -> & H); simpl in H.
    + destruct H as (E1 & _). discriminate.
    + apply ucan_bind in H. destruct H as (r & l1 & l2 & -> & H & E1 & ->).
      destruct r as [j|]; simpl in E1; [discriminate|]. rewrite app_nil_r.
      apply (IH H2) in H. exists vs, l1. auto.
  - intros (args & l' & E1 & -> & H). inversion E1; subst. exists false, l'. split; auto.
    apply ucan_bind. exists None, l', []. rewrite app_nil_r. simpl. repeat split; auto. apply (IH H2); auto.
Qed.

Lemma ucan_type_none G seen e g n log : env_has G e -> covers seen e ->
  guide_wf seen g = true -> guide_typed G g n = true ->
  (ucan (u_type e g) None log <-> unguided e g log).
Proof.
  intros Hg Hc Hw Ht. destruct g; simpl in *.
  - destruct (tlookup G id) as [t|] eqn:Et; [|discriminate].
    apply Hg in Et. destruct Et as (v & Hl & Hv).
    destruct t as [[s'| | |]| | | | | |]; try discriminate. simpl in Hv. destruct v; try tauto.
    rewrite Hl. simpl. rewrite switch_none. split.
    + intros (H & ->). split; eauto.
    + intros [-> (z' & E1 & H)]. inversion E1; subst. auto.
  - destruct (covers_lookups _ _ _ Hc Hw) as [vs Hv]. rewrite Hv. simpl. split.
    + intros (z & l' & -> & H & ->). exists vs, z. repeat split; auto; apply switch_none; auto.
    + intros (args & z & E1 & -> & H). inversion E1; subst. exists z, []. repeat split; auto.
      apply switch_none; auto.
  - eapply ucan_ladder_none; eauto.
Qed.

(** ** Lengths seen from a field *)

Lemma ucan_asked c seen e id z t v b log : wf_ty seen t = true -> covers seen e -> has_ty t v ->
  (ucan (u_cond_agrees e id (to_size c z) t v) b log <->
   exists ms, asked_size e id t v log ms /\ (b = true <-> Forall (counts c (VZ z)) ms)).
Proof.
  intros Hw Hc Hv. unfold u_cond_agrees.
  assert (K : forall l : list said, (true = b /\ log = l) <-> 
              exists ms, (log = l /\ ms = []) /\ (b = true <-> Forall (counts c (VZ z)) ms)).
  { intros l. split.
    - intros [<- ->]. exists []. repeat split; auto.
    - intros (ms & [-> ->] & H). split; auto. symmetry. apply H. constructor. }
  assert (K1 : forall n, (Z.of_nat n =? to_size c z) = b <-> (b = true <-> Forall (counts c (VZ z)) [n])).
  { intros n. assert (Hf : Forall (counts c (VZ z)) [n] <-> counts c (VZ z) n).
    { split; [intros H; inversion H; auto|auto]. }
    rewrite Hf, counts_iff. destruct b, (Z.of_nat n =? to_size c z); intuition congruence. }
  destruct t as [| | | | |b' p ids|g al]; try (simpl; apply K).
  - cbn [wf_ty] in Hw. apply andb_true_iff in Hw. destruct Hw as [W1 W2].
    destruct v as [| | | |v'| |]; simpl in Hv; try tauto.
    + unfold cond_agrees. cbn [cond_target]. destruct (ident_is _ _); simpl; apply K.
    + pose proof (target_sized id b' v' Hv) as Hs. cbn [asked_size].
      destruct (ident_is (len_target b') id) eqn:Ei.
      * destruct Hs as (n & -> & ->). destruct (covers_lookups _ _ _ Hc W1) as [vs Hl]. rewrite Hl.
        simpl. split.
        -- intros (a & l' & -> & H). exists (if a then [n] else []). split.
           ++ exists vs, a. destruct a; simpl in H; destruct H as [H ->]; auto.
           ++ destruct a; simpl in H; destruct H as [H ->]; [apply K1; auto|]. subst b. split; auto.
        -- intros (ms & (args & a & E & -> & ->) & H). inversion E; subst. exists a, []. split; auto.
           destruct a; simpl; split; auto; [apply K1; auto|]. symmetry. apply H. constructor.
      * rewrite Hs. simpl. apply K.
  - simpl in Hv. destruct v as [| | | | |i v'|]; try tauto.
    unfold cond_agrees. cbn [cond_target ident_is asked_size].
    apply has_alt_nth in Hv. destruct Hv as (t' & k' & E & Hv). rewrite E.
    pose proof (target_sized id t' v' Hv) as Hs.
    destruct (ident_is (len_target t') id) eqn:Ei.
    + destruct Hs as (n & Es & Ev). rewrite Ev. simpl. split.
      * intros [H ->]. exists [n]. split; [|apply K1; auto]. split; auto. exists t', k'. rewrite Es. auto.
      * intros (ms & [-> (t'' & k'' & X & ->)] & H). inversion X; subst. rewrite Es in H. split; auto.
        apply K1; auto.
    + simpl. split.
      * intros [<- ->]. exists []. split; [|split; auto]. split; auto. exists t', k'. rewrite Hs. auto.
      * intros (ms & [-> (t'' & k'' & X & ->)] & H). inversion X; subst. rewrite Hs in H. split; auto.
        symmetry. apply H. constructor.
Qed.

Lemma ucan_asks c e id z fs : forall seen vs b log, wf_fields seen fs = true ->
  covers seen e -> covers (f_ids fs) e -> has_fields fs vs ->
  (ucan (u_verify e id (to_size c z) fs vs) b log <->
   exists ms, asked_sizes e id fs vs log ms /\ (b = true <-> Forall (counts c (VZ z)) ms)).
Proof.
  induction fs as [|id' t k fs IH]; intros seen [|v vs] b log Hw Hc Hc' Hv; simpl in Hv; try tauto.
  - simpl. split.
    + intros [<- ->]. exists []. repeat split; auto.
    + intros (ms & [-> ->] & H). split; auto. symmetry. apply H. constructor.
  - cbn [u_verify wf_fields f_ids asked_sizes] in *.
    apply andb_true_iff in Hw. destruct Hw as [Hw W3]. apply andb_true_iff in Hw. destruct Hw as [W1 W2].
    destruct Hv as [V1 V2].
    assert (IH' : forall b l, ucan (u_verify e id (to_size c z) fs vs) b l <->
       exists ms, asked_sizes e id fs vs l ms /\ (b = true <-> Forall (counts c (VZ z)) ms)).
    { intros b' l. apply (IH (id' :: seen)); auto.
      - intros x [->|Hx]; auto. apply Hc'. left; auto.
      - intros x Hx. apply Hc'. right; auto. }
    rewrite ucan_bind. split.
    + intros (a & l1 & l2 & -> & H1 & H2). apply ucan_bind in H2.
      destruct H2 as (b' & l3 & l4 & -> & H2 & E & ->). rewrite app_nil_r.
      eapply ucan_asked in H1; eauto. apply IH' in H2.
      destruct H1 as (m1 & A1 & B1). destruct H2 as (m2 & A2 & B2).
      exists (m1 ++ m2). split; [exists l1, l3, m1, m2; auto|].
      rewrite Forall_app, <- B1, <- B2, <- andb_true_iff, E. tauto.
    + intros (ms & (l1 & l2 & m1 & m2 & -> & -> & A1 & A2) & H).
      assert (D : forall m, exists b', b' = true <-> Forall (counts c (VZ z)) m).
      { intros m. exists (forallb (fun n => Z.of_nat n =? to_size c z) m).
        rewrite forallb_forall, Forall_forall. split; intros X n Hn; apply X in Hn; apply counts_iff; auto. }
      destruct (D m1) as [b1 B1]. destruct (D m2) as [b2 B2].
      exists b1, l1, l2. split; auto. split; [eapply ucan_asked; eauto|].
      apply ucan_bind. exists b2, l2, []. rewrite app_nil_r. split; auto. split; [apply IH'; eauto|].
      simpl. split; auto. rewrite Forall_app, <- B1, <- B2, <- andb_true_iff in H.
      destruct (b1 && b2), b; auto; try (symmetry; apply H; auto; fail); apply H; auto.
Qed.

Lemma ufail_agrees e id w t v x log : ~ ufail (u_cond_agrees e id w t v) x log.
Proof.
  intros H. unfold u_cond_agrees in H.
  assert (Q : forall o : option bool, ~ ufail (match o with Some b => URet b | None => UStuck end) x log)
    by (intros [b|]; simpl; auto).
  destruct t; try (apply Q in H; auto; fail). destruct v; try (apply Q in H; auto; fail).
  destruct (ident_is _ _); simpl in H; auto. destruct (lookups e ids); simpl in H; auto.
  destruct H as ([|] & l0 & _ & H); simpl in H; auto. destruct (val_size v); simpl in H; auto.
Qed.

Lemma ufail_verify e id w fs x : forall vs log, ~ ufail (u_verify e id w fs vs) x log.
Proof.
  induction fs as [|id' t k fs IH]; intros [|v vs] log H; simpl in H; auto.
  apply ufail_bind in H. destruct H as [H|(a & l1 & l2 & _ & _ & H)]; [eapply ufail_agrees; eauto|].
  apply ufail_bind in H. destruct H as [H|(b & l3 & l4 & _ & _ & [])]. eapply IH; eauto.
Qed.

Lemma asked_none e id fs : forall vs log ms, has_fields fs vs -> has_cond_obligation fs id = false ->
  asked_sizes e id fs vs log ms -> ms = [].
Proof.
  induction fs as [|id' t k fs IH]; intros [|v vs] log ms Hv Ho A; simpl in Hv; try tauto.
  - simpl in A. tauto.
  - cbn [has_cond_obligation asked_sizes] in *. apply orb_false_iff in Ho. destruct Ho as [O1 O2].
    destruct Hv as [V1 V2]. destruct A as (l1 & l2 & m1 & m2 & -> & -> & A1 & A2).
    apply IH in A2; auto. subst m2. rewrite app_nil_r.
    unfold has_cond_obligation_of in O1. apply orb_false_iff in O1. destruct O1 as [O1 O3].
    destruct t as [| | | | |b p ids|g al]; simpl in A1; try tauto.
    + simpl in O1, V1. destruct v; try tauto. pose proof (target_sized id b v V1) as Hs.
      rewrite O1 in Hs. rewrite Hs in A1. tauto.
    + simpl in V1. destruct v; try tauto. destruct A1 as (_ & t' & k' & Hn & ->).
      assert (ident_is (len_target t') id = false) as X.
      { clear -Hn O3. revert i Hn. induction al; simpl in *; intros i Hn; [destruct i; discriminate|].
        apply orb_false_iff in O3. destruct O3. destruct i; [inversion Hn; subst; auto|eauto]. }
      apply has_alt_nth in V1. destruct V1 as (t'' & k'' & E & V). rewrite E in Hn. inversion Hn; subst.
      pose proof (target_sized id t' v V) as Y. rewrite X in Y. rewrite Y. auto.
Qed.

Section Ctx.
Variable fs : fields.
Variable vs : list val.
Hypothesis Hx : wctx fs vs.
Hypothesis Hwf : wf_fields [] fs = true.
Hypothesis Hvs : has_fields fs vs.

Lemma ufail_vtw c id t n v x log : ct_wf t = true ->
  match t with TScalar _ | TFloat _ => (n <= csize t)%nat | _ => n = csize t end -> ct_ok t v ->
  (has_cond_obligation fs id = true -> exists s, t = TScalar s) ->
  (ufail (u_verify_then_write c fs vs id t n v) x log <-> halts_out c fs vs id t n v x log).
Proof.
  intros Hw Hn Hv Hs.
  assert (F : forall l, ufail (of_w (write_const c t n v)) x l <->
                        x = BufferExhaustion /\ cut (fixed_calls c t n v) l).
  { intros l. apply ufail_of_w; [apply wdone_const|apply follows_const|apply wexh_const]; auto. }
  unfold u_verify_then_write, halts_out. destruct (has_cond_obligation fs id) eqn:Eh.
  - destruct (Hs eq_refl) as [s ->]. simpl in Hv. destruct v; try tauto.
    assert (V : forall l, ucan (u_verify (mk_env fs vs) id (to_size c z) fs vs) true l <->
                told_sizes c (mk_env fs vs) id (VZ z) fs vs l).
    { intros l. apply (ucan_verify c (mk_env fs vs) id z fs []); auto; [intros ? []|apply (x_cov _ _ Hx)]. }
    assert (V' : forall l, ucan (u_verify (mk_env fs vs) id (to_size c z) fs vs) false l <->
                exists ms, asked_sizes (mk_env fs vs) id fs vs l ms /\ ~ Forall (counts c (VZ z)) ms).
    { intros l. rewrite (ucan_asks c (mk_env fs vs) id z fs []); auto; [|intros ? []|apply (x_cov _ _ Hx)].
      split; intros (ms & A & B); exists ms; (split; [auto|]).
      - intros X. apply B in X. discriminate.
      - split; [discriminate|tauto]. }
    rewrite ufail_bind. split.
    + intros [H|(a & l1 & l2 & -> & H1 & H2)]; [elim (ufail_verify _ _ _ _ _ _ _ H)|].
      destruct a; simpl in H2.
      * apply F in H2. destruct H2 as [-> H2]. right. split; auto. exists l1, l2. rewrite <- V. auto.
      * destruct H2 as [<- ->]. rewrite app_nil_r. left. split; auto. apply V'; auto.
    + intros [[-> H]|(-> & l1 & l2 & H1 & H2 & ->)]; right.
      * exists false, log, []. rewrite app_nil_r. repeat split; auto. apply V'; auto.
      * exists true, l1, l2. split; auto. split; [apply V; auto|apply F; auto].
  - rewrite F. split.
    + intros [-> H]. right. split; auto. exists [], log. repeat split; auto. apply told_none; auto.
    + intros [(_ & ms & A & B)|(-> & l1 & l2 & H1 & H2 & ->)].
      * apply asked_none in A; auto. subst. elim B. constructor.
      * apply told_none in H1; auto. subst; auto.
Qed.

Lemma ufail_fixed c id k t n v x log : ct_wf t = true ->
  match t with TScalar _ | TFloat _ => (n <= csize t)%nat | _ => n = csize t end -> ct_ok t v ->
  constr_ok (FFixed t n) k = true ->
  (is_derived fs id || has_cond_obligation fs id = true -> exists s, t = TScalar s) ->
  (ufail (ubind (if is_derived fs id || is_frozen (FFixed t n) k then URet tt else u_wcheck k v)
               (fun _ => u_write_fixed c fs vs id true k t n v)) x log <->
   halts_fixed c fs vs id k t n v x log).
Proof.
  intros Hw Hn Hv Hk Hs. unfold u_write_fixed, halts_fixed.
  assert (Hs' : has_cond_obligation fs id = true -> exists s, t = TScalar s).
  { intros H. apply Hs. rewrite H. apply orb_true_r. }
  pose proof (x_derived _ _ Hx c id) as Hd.
  destruct (is_derived fs id) eqn:Ed.
  - destruct (Hs eq_refl) as [s ->]. unfold derive_value. rewrite (x_fold _ _ Hx).
    pose proof (claims_nonneg c id fs vs) as Hnn.
    destruct (claims c id fs vs) as [|z l]; [exfalso; apply Hd; auto|].
    assert (Hz : 0 <= z) by (apply Hnn; left; auto).
    cbn [orb ubind fold_left]. change (record (mkD 0 false true) z) with (mkD z true true).
    destruct (record_agreed l z) as [R1 R2].
    destruct (d_agreed _) eqn:Ea; cbn [negb].
    + assert (HF : Forall (eq z) l) by (apply R1; auto). rewrite R2 by auto.
      assert (Hfi : fits_declared_width c s n z = true <-> fits c s n z) by (apply fits_iff; auto).
      assert (Hc : ct_ok (TScalar s) (VZ (conv s z))) by (simpl; apply conv_in).
      destruct (fits_declared_width c s n z); cbn [negb].
      * rewrite (ufail_then _ _ x (heard_check k (VZ (conv s z)))
          (fun l => refused k (VZ (conv s z)) l /\ x = ValidationFailure)
          (halts_out c fs vs id (TScalar s) n (VZ (conv s z)) x)).
        -- split.
           ++ intros H. right. split; auto. exists s. split; auto. right. destruct H as [H|H]; [left|right]; tauto.
           ++ intros [(X & _)|(_ & s' & E & [(X & _)|[(_ & H)|(_ & H)]])]; [tauto|..]; inversion E; subst; tauto.
        -- intros l'. apply (ucan_wcheck (FFixed (TScalar s) n)); auto.
        -- intros l'. apply (ufail_wcheck (FFixed (TScalar s) n)); auto.
        -- intros l'. apply ufail_vtw; auto.
      * assert (Hnf : ~ fits c s n z) by (intros X; apply Hfi in X; discriminate).
        simpl. split.
        -- intros [<- ->]. right. split; auto. exists s. auto 6.
        -- intros [(X & _)|(_ & s' & E & [(_ & -> & ->)|[(X & _)|(X & _)]])]; [tauto|auto|..];
             inversion E; subst; tauto.
    + assert (HF : ~ Forall (eq z) l) by (intros X; apply R1 in X; congruence).
      simpl. split.
      * intros [<- ->]. auto.
      * intros [(_ & -> & ->)|[X _]]; [auto|tauto].
  - assert (claims c id fs vs = []) as ->.
    { destruct (claims c id fs vs); auto. exfalso. assert (false = true) by (apply Hd; discriminate).
      discriminate. }
    unfold is_frozen. rewrite frozen_pinned. cbn [orb andb].
    destruct (pinned t k) as [w|] eqn:Ep.
    + cbn [ubind]. apply ufail_vtw; auto. eapply pinned_ok; eauto.
    + apply (ufail_then _ _ x (heard_check k v) (fun l => refused k v l /\ x = ValidationFailure)
               (halts_out c fs vs id t n v x)).
      * intros l'. apply (ucan_wcheck (FFixed t n)); auto.
      * intros l'. apply (ufail_wcheck (FFixed t n)); auto.
      * intros l'. apply ufail_vtw; auto.
Qed.
End Ctx.

(** ** Everything *)

Definition hl_ty (t : fty) : Prop := forall c fs vs id mem k v G seen x log,
  wctx fs vs -> wf_fields [] fs = true -> has_fields fs vs ->
  wf_ty seen t = true -> incl seen (f_ids fs) -> typed_ty G t = true ->
  sub G (tafter [] fs) -> has_ty t v ->
  is_derived fs id || has_cond_obligation fs id = false ->
  (mem = true -> forall t' n, t <> FFixed t' n) ->
  (ufail (u_write c fs vs id mem k t v) x log <-> halts_ty c (mk_env fs vs) t v x log).

Definition hl_fields (gs : fields) : Prop := forall c fs vs ws G seen x id log,
  wctx fs vs -> wf_fields [] fs = true -> has_fields fs vs ->
  wf_fields seen gs = true -> incl seen (f_ids fs) -> incl (f_ids gs) (f_ids fs) ->
  typed_fields G gs = true -> sub G (tafter [] fs) -> members (tafter [] fs) gs ->
  has_fields gs ws ->
  (ufail (u_write_fields c fs vs gs ws) (x, id) log <-> halts_fields c fs vs gs ws x id log).

Definition hl_alts (al : alts) : Prop := forall c fs vs id i v G seen x log,
  wctx fs vs -> wf_fields [] fs = true -> has_fields fs vs ->
  wf_alts seen al = true -> incl seen (f_ids fs) -> typed_alts G al = true ->
  sub G (tafter [] fs) -> has_alt al i v ->
  is_derived fs id || has_cond_obligation fs id = false ->
  (ufail (u_write_alts c fs vs id al i v) x log <-> halts_alts c (mk_env fs vs) al i v x log).

Lemma hl_cast gs : hl_fields gs -> forall c ws x id log, wf_fields [] gs = true ->
  typed_fields [] gs = true -> has_fields gs ws ->
  (ufail (u_write_fields c gs ws gs ws) (x, id) log <-> halts_fields c gs ws gs ws x id log).
Proof.
  intros IH c ws x id log Hw Ht Hv. destruct (wctx_intro gs ws Hw Ht Hv) as [Hx Hm].
  eapply IH; eauto.
  - intros y [].
  - apply incl_refl.
  - intros i t Hl. discriminate.
Qed.

Lemma hl_record gs : hl_fields gs -> forall c ws x log, wf_fields [] gs = true ->
  typed_fields [] gs = true -> has_fields gs ws ->
  (ufail (umaperr fst (u_write_fields c gs ws gs ws)) x log <->
   exists id, halts_fields c gs ws gs ws x id log).
Proof.
  intros IH c ws x log Hw Ht Hv. rewrite ufail_maperr. split.
  - intros ([y id] & -> & H). exists id. apply (hl_cast gs IH); auto.
  - intros (id & H). exists (x, id). split; auto. apply (hl_cast gs IH); auto.
Qed.

Lemma hl_records gs : hl_fields gs -> forall c xs x, wf_fields [] gs = true ->
  typed_fields [] gs = true ->
  Forall (fun x => match x with VRec vs => has_fields gs vs | _ => False end) xs ->
  forall log,
  ufail (ufor xs (fun x => match x with
                          | VRec ws => umaperr fst (u_write_fields c gs ws gs ws)
                          | _ => UStuck
                          end)) x log <->
  halts_in (fun x l => exists ws, x = VRec ws /\ told_fields c gs ws gs ws l)
           (fun y l => exists ws id, y = VRec ws /\ halts_fields c gs ws gs ws x id l) xs log.
Proof.
  intros IH c xs x Hw Ht Hv. apply ufail_for. eapply Forall_impl; [|exact Hv].
  intros y Hy. destruct writer_told as (_ & HF & _).
  destruct y as [| |ws| | | |]; try tauto. split; intros l.
  - rewrite ucan_maperr, (tl_cast gs (HF gs)) by auto.
    split; [eauto|]. intros (ws' & E & H). inversion E; subst; auto.
  - rewrite (hl_record gs IH) by auto.
    split; [intros (id & H); eauto|]. intros (ws' & id & E & H). inversion E; subst; eauto.
Qed.

Lemma writer_halts : (forall t, hl_ty t) /\ (forall gs, hl_fields gs) /\ (forall al, hl_alts al).
Proof.
  destruct writer_told as (TT & TF & TA).
  apply schema_mutind; unfold hl_ty, hl_alts.
  - intros t n c fs vs id mem k v G seen x log Hx Hf Hvs Hw Hi Ht Hs Hv Hd Hm.
    cbn [u_write wf_ty has_ty halts_ty] in *. apply andb_true_iff in Hw. destruct Hw as [W1 W2].
    destruct mem; [elim (Hm eq_refl t n eq_refl)|].
    apply orb_false_iff in Hd. destruct Hd as [D1 D2].
    unfold u_write_fixed, u_verify_then_write. rewrite D1, D2. cbn [andb].
    apply ufail_of_w; [apply wdone_const|apply follows_const|apply wexh_const]; auto; destruct t; lia.
  - intros elt l b c fs vs id mem k v G seen x log Hx Hf Hvs Hw Hi Ht Hs Hv Hd Hm.
    cbn [u_write wf_ty typed_ty has_ty halts_ty] in *.
    apply andb_true_iff in Hw. destruct Hw as [W1 W2].
    destruct v; try tauto.
    assert (HL : len_value (mk_env fs vs) l).
    { eapply len_value_typed with (G := G) (seen := seen); auto.
      - intros i u E. apply (x_has _ _ Hx), Hs, E.
      - eapply covers_incl; [apply (x_cov _ _ Hx)|auto]. }
    rewrite (ufail_then _ _ x (told_len c (mk_env fs vs) l (length l0))
               (fun l' => x = FoundContradictingLength /\ misjudged c (mk_env fs vs) l (length l0) l')
               (fun l' => x = BufferExhaustion /\ cut (var_calls c elt l0) l')).
    + split.
      * intros H. exists l0. split; auto. destruct H as [H|(l1 & l2 & -> & H1 & -> & H2)]; [auto|].
        right. split; auto. exists l1, l2. auto.
      * intros (xs & E & H). inversion E; subst. destruct H as [H|(-> & l1 & l2 & H1 & H2 & ->)]; [auto|].
        right. exists l1, l2. auto.
    + intros l'. apply ucan_len; auto.
    + intros l'. apply ufail_len; auto.
    + intros l'. apply ufail_of_w; [apply wdone_var|apply follows_var|apply wexh_var]; auto.
  - intros gs IH c fs vs id mem k v G seen x log Hx Hf Hvs Hw Hi Ht Hs Hv Hd Hm.
    cbn [u_write wf_ty typed_ty has_ty halts_ty] in *. destruct v as [| |ws| | | |]; try tauto.
    rewrite (hl_record gs IH) by auto.
    split; [intros (i & H); eauto|]. intros (ws' & i & E & H). inversion E; subst; eauto.
  - intros n gs IH c fs vs id mem k v G seen x log Hx Hf Hvs Hw Hi Ht Hs Hv Hd Hm.
    cbn [u_write wf_ty typed_ty has_ty halts_ty] in *.
    destruct v as [|xs| | | | |]; try tauto. destruct Hv as [<- Hv]. rewrite Nat.eqb_refl.
    rewrite (hl_records gs IH) by auto.
    split; [eauto|]. intros (ws' & E & H). inversion E; subst; auto.
  - intros gs IH recsz l b c fs vs id mem k v G seen x log Hx Hf Hvs Hw Hi Ht Hs Hv Hd Hm.
    cbn [u_write wf_ty typed_ty has_ty halts_ty] in *.
    apply andb_true_iff in Hw. destruct Hw as [Hw W2].
    apply andb_true_iff in Hw. destruct Hw as [W1 W3].
    apply andb_true_iff in Ht. destruct Ht as [T1 T2].
    destruct v as [|xs| | | | |]; try tauto.
    assert (HL : len_value (mk_env fs vs) l).
    { eapply len_value_typed with (G := G) (seen := seen); auto.
      - intros i u E. apply (x_has _ _ Hx), Hs, E.
      - eapply covers_incl; [apply (x_cov _ _ Hx)|auto]. }
    rewrite (ufail_then _ _ x (told_len c (mk_env fs vs) l (length xs))
      (fun l' => x = FoundContradictingLength /\ misjudged c (mk_env fs vs) l (length xs) l')
      (halts_in (fun x l => exists ws, x = VRec ws /\ told_fields c gs ws gs ws l)
           (fun y l => exists ws id, y = VRec ws /\ halts_fields c gs ws gs ws x id l) xs)).
    + split.
      * intros H. exists xs. split; auto. destruct H as [H|(l1 & l2 & -> & H1 & H2)]; [auto|].
        right. exists l1, l2. auto.
      * intros (xs' & E & H). inversion E; subst. destruct H as [H|(l1 & l2 & H1 & -> & H2)]; [auto|].
        right. exists l1, l2. auto.
    + intros l'. apply ucan_len; auto.
    + intros l'. apply ufail_len; auto.
    + apply (hl_records gs IH); auto.
  - intros b IH p ids c fs vs id mem k v G seen x log Hx Hf Hvs Hw Hi Ht Hs Hv Hd Hm.
    cbn [u_write wf_ty typed_ty has_ty halts_ty] in *.
    apply andb_true_iff in Hw. destruct Hw as [W1 W2].
    apply andb_true_iff in Ht. destruct Ht as [_ T2].
    destruct (covers_lookups _ _ ids (covers_incl _ _ _ (x_cov _ _ Hx) Hi) W1) as [args Hl].
    rewrite Hl. destruct v as [| | | |v'| |]; try tauto.
    + simpl. split.
      * intros (a & l' & -> & H). destruct a; simpl in H; [|tauto]. destruct H as [<- ->].
        exists args. auto.
      * intros (args' & E & [(_ & -> & ->)|[(v' & X & _)|(v' & l' & X & _)]]); try discriminate. inversion E; subst.
        exists true, []. simpl. auto.
    + assert (IH' : forall l, ufail (u_write c fs vs id false CNone b v') x l <->
                              halts_ty c (mk_env fs vs) b v' x l).
      { intros l. eapply IH; eauto. discriminate. }
      cbn [ufail]. split.
      * intros (a & l' & -> & H). exists args. split; auto. right. destruct a.
        -- apply IH' in H. right. eauto.
        -- simpl in H. destruct H as [<- ->]. left. eauto.
      * intros (args' & E & [(X & _)|[(v'' & X & -> & ->)|(v'' & l' & X & -> & H)]]); [discriminate| |];
          inversion E; inversion X; subst.
        -- exists false, []. simpl. auto.
        -- exists true, l'. split; auto. apply IH'; auto.
  - intros g al IH c fs vs id mem k v G seen x log Hx Hf Hvs Hw Hi Ht Hs Hv Hd Hm.
    cbn [u_write wf_ty typed_ty has_ty halts_ty] in *.
    apply andb_true_iff in Hw. destruct Hw as [W1 W2].
    apply andb_true_iff in Ht. destruct Ht as [T1 T2].
    destruct v as [| | | | |i v|]; try tauto.
    assert (Hal : forall l, ufail (u_write_alts c fs vs id al i v) x l <->
                            halts_alts c (mk_env fs vs) al i v x l) by (intros l; eauto).
    assert (He : env_has G (mk_env fs vs)).
    { intros j' u E. apply (x_has _ _ Hx), Hs, E. }
    assert (Hc : covers seen (mk_env fs vs)).
    { eapply covers_incl; [apply (x_cov _ _ Hx)|auto]. }
    assert (Q : forall j l, ucan (u_type (mk_env fs vs) g) (Some j) l <-> heard_guide (mk_env fs vs) g j l).
    { intros j l. eapply ucan_type with (G := G) (seen := seen); eauto. }
    assert (Q0 : forall l, ucan (u_type (mk_env fs vs) g) None l <-> unguided (mk_env fs vs) g l).
    { intros l. eapply ucan_type_none with (G := G) (seen := seen); eauto. }
    assert (R :
      (ufail (ubind (u_type (mk_env fs vs) g) (fun r =>
                match r with
                | Some j =>
                    if Nat.eqb j i then u_write_alts c fs vs id al i v
                    else UErr ValidationFailure
                | None => UErr TypeDeductionFailure
                end)) x log <->
       exists i' v', VAlt i v = VAlt i' v' /\
         ((unguided (mk_env fs vs) g log /\ x = TypeDeductionFailure) \/
          (exists j, j <> i' /\ heard_guide (mk_env fs vs) g j log /\ x = ValidationFailure) \/
          (exists l1 l2, heard_guide (mk_env fs vs) g i' l1 /\
              halts_alts c (mk_env fs vs) al i' v' x l2 /\ log = l1 ++ l2)))).
    { rewrite ufail_bind. split.
      - intros [H|(r & l1 & l2 & -> & H1 & H2)]; [elim (ufail_type _ _ _ _ H)|].
        exists i, v. split; auto. destruct r as [j|].
        + apply Q in H1. destruct (Nat.eqb_spec j i) as [->|Hj].
          * apply Hal in H2. right. right. exists l1, l2. auto.
          * simpl in H2. destruct H2 as [<- ->]. rewrite app_nil_r. right. left. eauto.
        + apply Q0 in H1. simpl in H2. destruct H2 as [<- ->]. rewrite app_nil_r. auto.
      - intros (i' & v' & E & H). inversion E; subst i' v'. right.
        destruct H as [[H ->]|[(j & Hj & H & ->)|(l1 & l2 & H1 & H2 & ->)]].
        + exists None, log, []. rewrite app_nil_r. split; auto. split; [apply Q0; auto|simpl; auto].
        + exists (Some j), log, []. rewrite app_nil_r. split; auto. split; [apply Q; auto|].
          apply Nat.eqb_neq in Hj. rewrite Hj. simpl; auto.
        + exists (Some i), l1, l2. rewrite Nat.eqb_refl. split; auto. split; [apply Q; auto|apply Hal; auto]. }
    destruct g; try exact R.
    rewrite Hal. split.
    + intros H. eauto.
    + intros (i' & v' & E & H). inversion E; subst. auto.
  - intros c fs vs ws G seen x i log Hx Hf Hvs Hw Hi Hi' Ht Hs Hm Hv. destruct ws; [|simpl in Hv; tauto].
    simpl. tauto.
  - intros id t IHt k gs IHgs c fs vs ws G seen x i log Hx Hf Hvs Hw Hi Hi' Ht Hs Hm Hv.
    destruct ws as [|w ws]; [simpl in Hv; tauto|].
    cbn [u_write_fields wf_fields typed_fields has_fields members f_ids halts_fields] in *.
    apply andb_true_iff in Hw. destruct Hw as [Hw W3]. apply andb_true_iff in Hw. destruct Hw as [W1 W2].
    apply andb_true_iff in Ht. destruct Ht as [Ht T3]. apply andb_true_iff in Ht. destruct Ht as [T1 T2].
    destruct Hv as [V1 V2]. destruct Hm as [M1 M2].
    assert (S1 : incl (id :: seen) (f_ids fs)).
    { intros y [->|Hin]; auto. apply Hi'. left; auto. }
    assert (S2 : incl (f_ids gs) (f_ids fs)) by (intros y Hin; apply Hi'; right; auto).
    assert (S3 : sub ((id, t) :: G) (tafter [] fs)).
    { intros j u. simpl. destruct (String.eqb_spec id j); auto. intros E; inversion E; subst; auto. }
    assert (Q : forall p (P : list said -> Prop) (N : reason -> list said -> Prop),
      (forall l, ucan p tt l <-> P l) -> (forall y l, ufail p y l <-> N y l) ->
      (ufail (ubind (umaperr (fun r => (r, id)) p) (fun _ => u_write_fields c fs vs gs ws)) (x, i) log <->
       (i = id /\ N x log) \/
       exists l1 l2, log = l1 ++ l2 /\ P l1 /\ halts_fields c fs vs gs ws x i l2)).
    { intros p P N HP HN. apply (ufail_then _ _ (x, i) P (fun l => i = id /\ N x l)
               (halts_fields c fs vs gs ws x i)).
      - intros l. rewrite ucan_maperr. auto.
      - intros l. rewrite ufail_maperr. split.
        + intros (y & E & H). inversion E; subst. split; auto. apply HN; auto.
        + intros [-> H]. exists x. split; auto. apply HN; auto.
      - intros l. apply (IHgs c fs vs ws ((id, t) :: G) (id :: seen)); auto. }
    destruct (match t with FFixed _ _ => true | _ => false end) eqn:Et.
    + destruct t as [t n| | | | | |]; try discriminate. cbn [u_write].
      cbn [wf_ty] in W2. apply andb_true_iff in W2. destruct W2 as [W2 W4].
      assert (S4 : is_derived fs id || has_cond_obligation fs id = true -> exists s, t = TScalar s).
      { intros H. destruct (x_scalar _ _ Hx _ H) as (s & m & E). rewrite M1 in E. inversion E; eauto. }
      apply (Q _ (told_fixed c fs vs id k t n w) (halts_fixed c fs vs id k t n w)).
      * intros l. apply ucan_fixed; auto. destruct t; lia.
      * intros y l. apply ufail_fixed; auto. destruct t; lia.
    + assert (Hd : is_derived fs id || has_cond_obligation fs id = false).
      { destruct (is_derived fs id || has_cond_obligation fs id) eqn:E; auto.
        destruct (x_scalar _ _ Hx _ E) as (s & m & E'). rewrite M1 in E'. inversion E'; subst. discriminate. }
      assert (Hz : is_frozen t k = false).
      { destruct t; try discriminate; reflexivity. }
      assert (Hd' : is_derived fs id = false) by (apply orb_false_iff in Hd; tauto).
      rewrite Hz, Hd'. cbn [orb].
      assert (Hnf : true = true -> forall t' n, t <> FFixed t' n) by (intros _ t' n ->; discriminate).
      rewrite (Q _ (fun l => exists l1 l2, l = l1 ++ l2 /\ heard_check k w l1 /\ told_ty c (mk_env fs vs) t w l2)
                 (fun y l => (refused k w l /\ y = ValidationFailure) \/
                    exists l1 l2, l = l1 ++ l2 /\ heard_check k w l1 /\ halts_ty c (mk_env fs vs) t w y l2)).
      * destruct t; try discriminate; tauto.
      * apply ucan_then; [intros l'; eapply ucan_wcheck; eauto|].
        intros l'. eapply TT; eauto.
      * intros y. apply (ufail_then _ _ y (heard_check k w) (fun l => refused k w l /\ y = ValidationFailure)
               (halts_ty c (mk_env fs vs) t w y)); [intros l'; eapply ucan_wcheck; eauto|intros l'; eapply ufail_wcheck; eauto|].
        intros l'. eapply IHt; eauto.
  - intros c fs vs id i v G seen x log _ _ _ _ _ _ _ Hv. simpl in Hv. tauto.
  - intros t IHt k al IHal c fs vs id i v G seen x log Hx Hf Hvs Hw Hi Ht Hs Hv Hd.
    cbn [u_write_alts wf_alts typed_alts has_alt halts_alts] in *.
    apply andb_true_iff in Hw. destruct Hw as [W1 W2].
    apply andb_true_iff in Ht. destruct Ht as [Ht T3].
    apply andb_true_iff in Ht. destruct Ht as [Ht T2].
    apply andb_true_iff in Ht. destruct Ht as [_ T1].
    destruct i.
    + apply (ufail_then _ _ x (heard_check k v) (fun l => refused k v l /\ x = ValidationFailure)
               (halts_ty c (mk_env fs vs) t v x)).
      * intros l. eapply ucan_wcheck; eauto.
      * intros l. eapply ufail_wcheck; eauto.
      * intros l. eapply IHt; eauto. discriminate.
    + eapply IHal; eauto.
Qed.

(** ** Runs *)

Lemma ufail_run {E A} (H : host) (p : uprog E A) : writes_only p -> forall s x s' ev,
  urun H p s = (Err x, s', ev) -> ufail p x (flat_map said_of ev).
Proof.
  induction p; simpl; intros W s x s' ev R; try discriminate; try tauto.
  - inversion R; subst. auto.
  - destruct (h_write H s bs) as [[[|]|] s1]; try discriminate.
    + destruct (urun H p s1) as [[o1 s2] ev1] eqn:Q. injection R as -> <- <-. simpl. eauto 6.
    + injection R as -> <- <-. simpl. auto.
  - destruct (h_num H s f args) as [[z|] s1]; try discriminate.
    destruct (urun H (k z) s1) as [[o1 s2] ev1] eqn:Q. injection R as -> <- <-. simpl. eauto 6.
  - destruct (h_test H s p args) as [[z|] s1]; try discriminate.
    destruct (urun H (k z) s1) as [[o1 s2] ev1] eqn:Q. injection R as -> <- <-. simpl. eauto 6.
  - destruct (h_check H s p v) as [[z|] s1]; try discriminate.
    destruct (urun H (k z) s1) as [[o1 s2] ev1] eqn:Q. injection R as -> <- <-. simpl. eauto 6.
Qed.

Lemma run_ufail {E A} (p : uprog E A) : forall x log, ufail p x log ->
  exists ev, urun by_script p log = (Err x, [], ev) /\ flat_map said_of ev = log.
Proof.
  induction p; simpl; intros x log C; try tauto.
  - destruct C as [-> ->]. exists []. auto.
  - destruct C as [[-> ->]|(l & -> & C)].
    + simpl. eexists. split; [reflexivity|]. simpl. auto.
    + destruct (IHp _ _ C) as (ev & R & E1). simpl. rewrite R.
      eexists. split; [reflexivity|]. simpl. congruence.
  - destruct C as (z & l & -> & C). destruct (H _ _ _ C) as (ev & R & E1). simpl. rewrite R.
    eexists. split; [reflexivity|]. simpl. congruence.
  - destruct C as (z & l & -> & C). destruct (H _ _ _ C) as (ev & R & E1). simpl. rewrite R.
    eexists. split; [reflexivity|]. simpl. congruence.
  - destruct C as (z & l & -> & C). destruct (H _ _ _ C) as (ev & R & E1). simpl. rewrite R.
    eexists. split; [reflexivity|]. simpl. congruence.
Qed.

Lemma write_halts c fs vs r id : wf fs = true -> typed fs = true -> has_fields fs vs ->
  (forall H s s' ev, urun H (u_stream_cast c fs vs) s = (Err (r, id), s', ev) ->
     halts_fields c fs vs fs vs r id (flat_map said_of ev)) /\
  (forall log, halts_fields c fs vs fs vs r id log ->
     exists ev, urun by_script (u_stream_cast c fs vs) log = (Err (r, id), [], ev) /\
                flat_map said_of ev = log).
Proof.
  intros Hw Ht Hv. destruct writer_halts as (_ & HF & _).
  pose proof (fun log => hl_cast fs (HF fs) c vs r id log Hw Ht Hv) as Q. split.
  - intros H s s' ev R. apply Q. apply (ufail_run H) in R; auto.
    destruct writer_calls_any as (_ & HG & _).
    eapply (uw_writes True). apply (uw_cast fs (HG fs) True c vs Hw Ht); auto.
  - intros log T. apply run_ufail. apply Q; auto.
Qed.

Lemma write_halts_iff c fs vs r id log : wf fs = true -> typed fs = true -> has_fields fs vs ->
  ((exists H s s' ev, urun H (u_stream_cast c fs vs) s = (Err (r, id), s', ev) /\
      flat_map said_of ev = log) <->
   halts_fields c fs vs fs vs r id log).
Proof.
  intros Hw Ht Hv. destruct (write_halts c fs vs r id Hw Ht Hv) as [R1 R2]. split.
  - intros (H & s & s' & ev & R & <-). eauto.
  - intros C. destruct (R2 log C) as (ev & R & E1). exists by_script, log, [], ev. auto.
Qed.

(** ** Refused writes *)

(** Refused writes are reported as exhaustion, and nothing else is. *)
Fixpoint honest {E A} (why : E -> reason) (p : uprog E A) : Prop :=
  match p with
  | UErr e => why e <> BufferExhaustion
  | URet _ | UUB | UStuck => True
  | URead _ _ _ | UAlloc _ _ => False
  | UWrite _ e k => why e = BufferExhaustion /\ honest why k
  | UNum _ _ k => forall z, honest why (k z)
  | UTest _ _ k => forall b, honest why (k b)
  | UCheck _ _ k => forall b, honest why (k b)
  end.

Lemma honest_bind {E A B} why (p : uprog E A) (f : A -> uprog E B) :
  honest why p -> (forall a, honest why (f a)) -> honest why (ubind p f).
Proof. intros Hp Hf. induction p; simpl in *; auto; tauto. Qed.

Lemma honest_maperr {E E' A} why why' (g : E -> E') (p : uprog E A) :
  (forall e, why' (g e) = why e) -> honest why p -> honest why' (umaperr g p).
Proof.
  intros Hg Hp. induction p; simpl in *; auto; try tauto; try (rewrite Hg; auto).
  destruct Hp. auto.
Qed.

Lemma honest_of_w (p : wprog reason unit) : wexh p -> honest (fun r => r) (of_w p).
Proof. induction p; simpl; tauto. Qed.

Lemma honest_holds k v : honest (fun r => r) (u_holds k v).
Proof. unfold u_holds. destruct (check k v), k; simpl; auto. Qed.

Lemma honest_wcheck k v : honest (fun r => r) (u_wcheck k v).
Proof. apply honest_bind; [apply honest_holds|]. intros [|]; simpl; auto. discriminate. Qed.

Lemma honest_len c e l n : honest (fun r => r) (u_verify_len c e l n).
Proof.
  destruct l; simpl; auto. destruct (lookups e ids); simpl; auto. intros z.
  destruct (_ =? _); simpl; auto. discriminate.
Qed.

Lemma honest_ladder e brs : honest (fun r => r) (u_ladder e brs).
Proof.
  induction brs as [|[p ids] brs IH]; simpl; auto. destruct (lookups e ids); simpl; auto.
  intros [|]; simpl; auto. apply honest_bind; simpl; auto.
Qed.

Lemma honest_type e g : honest (fun r => r) (u_type e g).
Proof.
  destruct g; simpl; auto using honest_ladder.
  - destruct (lookup e id) as [[z| | | | | |]|]; simpl; auto.
  - destruct (lookups e ids); simpl; auto.
Qed.

Lemma honest_agrees e id w t v : honest (fun r => r) (u_cond_agrees e id w t v).
Proof.
  unfold u_cond_agrees.
  assert (Q : forall o : option bool, honest (fun r : reason => r) (match o with Some b => URet b | None => UStuck end))
    by (intros [b|]; simpl; auto).
  destruct t; auto. destruct v; auto. destruct (ident_is _ _); simpl; auto.
  destruct (lookups e ids); simpl; auto. intros [|]; simpl; auto. destruct (val_size v); simpl; auto.
Qed.

Lemma honest_verify e id w fs : forall vs, honest (fun r => r) (u_verify e id w fs vs).
Proof.
  induction fs as [|id' t k fs IH]; intros [|v vs]; simpl; auto.
  apply honest_bind; [apply honest_agrees|]. intros a. apply honest_bind; simpl; auto.
Qed.

Lemma honest_vtw c fs vs id t n v : honest (fun r => r) (u_verify_then_write c fs vs id t n v).
Proof.
  unfold u_verify_then_write. destruct (has_cond_obligation fs id).
  - destruct v; simpl; auto. apply honest_bind; [apply honest_verify|].
    intros [|]; [apply honest_of_w, wexh_const|simpl; discriminate].
  - apply honest_of_w, wexh_const.
Qed.

Lemma honest_fixed c fs vs id mem k t n v : honest (fun r => r) (u_write_fixed c fs vs id mem k t n v).
Proof.
  unfold u_write_fixed. destruct (is_derived fs id).
  - unfold derive_value. destruct t; simpl; auto. destruct (derive_fold _ _ _ _ _); simpl; auto.
    destruct (negb (d_agreed _)); [simpl; discriminate|].
    destruct (negb _); [simpl; discriminate|].
    apply honest_bind; [apply honest_wcheck|]. intros _. apply honest_vtw.
  - destruct (mem && _); [|apply honest_vtw]. destruct (frozen_value _ _); simpl; auto. apply honest_vtw.
Qed.

Lemma honest_for {E} why xs (f : val -> uprog E unit) : (forall x, honest why (f x)) -> honest why (ufor xs f).
Proof. intros H. induction xs; simpl; auto. apply honest_bind; auto. Qed.

Lemma writer_honest :
  (forall t c fs vs id mem k v, honest (fun r => r) (u_write c fs vs id mem k t v)) /\
  (forall gs c fs vs ws, honest fst (u_write_fields c fs vs gs ws)) /\
  (forall al c fs vs id i v, honest (fun r => r) (u_write_alts c fs vs id al i v)).
Proof.
  apply schema_mutind.
  - intros. apply honest_fixed.
  - intros elt l b c fs vs id mem k v. cbn [u_write]. destruct v; simpl; auto.
    apply honest_bind; [apply honest_len|]. intros _. apply honest_of_w, wexh_var.
  - intros gs IH c fs vs id mem k v. cbn [u_write]. destruct v; simpl; auto.
    eapply honest_maperr; [|apply IH]. auto.
  - intros n gs IH c fs vs id mem k v. cbn [u_write]. destruct v; simpl; auto.
    destruct (Nat.eqb _ _); simpl; auto. apply honest_for. intros [| | ws | | | |]; simpl; auto.
    eapply honest_maperr; [|apply IH]. auto.
  - intros gs IH recsz l b c fs vs id mem k v. cbn [u_write]. destruct v; simpl; auto.
    apply honest_bind; [apply honest_len|]. intros _.
    apply honest_for. intros [| | ws | | | |]; simpl; auto.
    eapply honest_maperr; [|apply IH]. auto.
  - intros b IH p ids c fs vs id mem k v. cbn [u_write]. destruct (lookups _ _); simpl; auto.
    intros [|]; destruct v; simpl; auto; discriminate.
  - intros g al IH c fs vs id mem k v. cbn [u_write]. destruct v; simpl; auto.
    destruct g; auto; (apply honest_bind; [apply honest_type|]); intros [j|]; simpl; try discriminate;
      destruct (Nat.eqb j i); simpl; auto; discriminate.
  - intros c fs vs [|]; simpl; auto.
  - intros id t IHt k gs IHgs c fs vs [|w ws]; simpl; auto.
    apply honest_bind; [|intros _; apply IHgs]. eapply honest_maperr; [reflexivity|].
    apply honest_bind; [|intros _; apply IHt]. destruct (_ || _); [simpl; auto|apply honest_wcheck].
  - simpl; auto.
  - intros t IHt k al IHal c fs vs id [|i] v; simpl; auto.
    apply honest_bind; [apply honest_wcheck|]. intros _; apply IHt.
Qed.

Lemma honest_run {E A} (H : host) why (p : uprog E A) : honest why p -> forall s x s' ev,
  urun H p s = (Err x, s', ev) ->
  (why x = BufferExhaustion <-> exists ev0 bs, ev = ev0 ++ [OnWrite bs (Some false)]) /\
  (forall ev0 bs rest, ev = ev0 ++ OnWrite bs (Some false) :: rest -> rest = []).
Proof.
  assert (Q : forall (x : E) y ev, (forall bs, y <> OnWrite bs (Some false)) ->
    (why x = BufferExhaustion <-> exists ev0 bs, ev = ev0 ++ [OnWrite bs (Some false)]) /\
    (forall ev0 bs rest, ev = ev0 ++ OnWrite bs (Some false) :: rest -> rest = []) ->
    (why x = BufferExhaustion <-> exists ev0 bs, y :: ev = ev0 ++ [OnWrite bs (Some false)]) /\
    (forall ev0 bs rest, y :: ev = ev0 ++ OnWrite bs (Some false) :: rest -> rest = [])).
  { intros x y ev Hy [I1 I2]. rewrite I1. split; [split|].
    - intros (ev0 & bs & ->). exists (y :: ev0), bs. auto.
    - intros (ev0 & bs & X). destruct ev0 as [|y0 ev0]; simpl in X; injection X as -> ->; eauto.
      elim (Hy bs eq_refl).
    - intros ev0 bs rest X. destruct ev0 as [|y0 ev0]; simpl in X; injection X as -> ->; eauto.
      elim (Hy bs eq_refl). }
  induction p; simpl; intros Hp s x s' ev R; try discriminate; try tauto.
  - inversion R; subst. split; [split|].
    + tauto.
    + intros ([|] & bs & X); discriminate.
    + intros [|] bs rest X; discriminate.
  - destruct Hp as [He Hp]. destruct (h_write H s bs) as [[[|]|] s1]; try discriminate.
    + destruct (urun H p s1) as [[o1 s2] ev1] eqn:R1. injection R as -> <- <-.
      apply Q; [discriminate|]. eauto.
    + injection R as -> <- <-. split; [split|]; auto.
      * intros _. exists [], bs. auto.
      * intros ev0 bs' rest X. destruct ev0 as [|y0 [|]]; simpl in X; inversion X; auto.
  - destruct (h_num H s f args) as [[z|] s1]; try discriminate.
    destruct (urun H (k z) s1) as [[o1 s2] ev1] eqn:R1. injection R as -> <- <-.
    apply Q; [discriminate|]. eauto.
  - destruct (h_test H s p args) as [[z|] s1]; try discriminate.
    destruct (urun H (k z) s1) as [[o1 s2] ev1] eqn:R1. injection R as -> <- <-.
    apply Q; [discriminate|]. eauto.
  - destruct (h_check H s p v) as [[z|] s1]; try discriminate.
    destruct (urun H (k z) s1) as [[o1 s2] ev1] eqn:R1. injection R as -> <- <-.
    apply Q; [discriminate|]. eauto.
Qed.

Lemma write_refused c fs vs H s s' ev r id :
  urun H (u_stream_cast c fs vs) s = (Err (r, id), s', ev) ->
  (r = BufferExhaustion <-> exists ev0 bs, ev = ev0 ++ [OnWrite bs (Some false)]) /\
  (forall ev0 bs rest, ev = ev0 ++ OnWrite bs (Some false) :: rest -> rest = []).
Proof.
  intros R. destruct writer_honest as (_ & HF & _).
  apply (honest_run H fst _ (HF fs c fs vs vs)) in R. exact R.
Qed.
