(** A write asks exactly what UserLogSpec.v says. *)
From Coq Require Import ZifyBool ZifyNat.
From Verif Require Import UserLogSpec Typing BytesFacts ProgFacts ReadFacts ReadMore Safety.
From Verif Require Import WriteFacts WriteMain CallFacts UserWrite ExactFacts WriteErr.

(** The program ends in [a] if it hears [log]. *)
Fixpoint ucan {E A} (p : uprog E A) (a : A) (log : list said) : Prop :=
  match p with
  | URet b => b = a /\ log = []
  | UErr _ | UUB | UStuck | URead _ _ _ | UAlloc _ _ => False
  | UWrite bs _ k => exists log', log = SWrite bs :: log' /\ ucan k a log'
  | UNum f args k => exists z log', log = SNum f args z :: log' /\ ucan (k z) a log'
  | UTest p args k => exists b log', log = STest p args b :: log' /\ ucan (k b) a log'
  | UCheck p v k => exists b log', log = SCheck p v b :: log' /\ ucan (k b) a log'
  end.

(** Nothing is read or allocated. *)
Fixpoint writes_only {E A} (p : uprog E A) : Prop :=
  match p with
  | URead _ _ _ | UAlloc _ _ => False
  | UWrite _ _ k => writes_only k
  | UNum _ _ k => forall z, writes_only (k z)
  | UTest _ _ k | UCheck _ _ k => forall b, writes_only (k b)
  | _ => True
  end.

Lemma uw_writes (ub : Prop) {E A} (p : uprog E A) : forall l, uw ub p l -> writes_only p.
Proof.
  induction p; simpl; intros l F; auto; try tauto; try (intros x; eapply H; eauto; fail).
  destruct l; [tauto|]. destruct F. eauto.
Qed.

Lemma ucan_bind {E A B} (p : uprog E A) (f : A -> uprog E B) b : forall log,
  ucan (ubind p f) b log <-> exists a l1 l2, log = l1 ++ l2 /\ ucan p a l1 /\ ucan (f a) b l2.
Proof.
  induction p; intros log; simpl.
  - split.
    + intros H. exists a, [], log. auto.
    + intros (a' & l1 & l2 & -> & [-> ->] & H). exact H.
  - split; [tauto|intros (? & ? & ? & _ & [] & _)].
  - split; [tauto|intros (? & ? & ? & _ & [] & _)].
  - split; [tauto|intros (? & ? & ? & _ & [] & _)].
  - split; [tauto|intros (? & ? & ? & _ & [] & _)].
  - split; [tauto|intros (? & ? & ? & _ & [] & _)].
  - split.
    + intros (l' & -> & H). apply IHp in H. destruct H as (a & l1 & l2 & -> & H1 & H2).
      exists a, (SWrite bs :: l1), l2. repeat split; eauto.
    + intros (a & l1 & l2 & -> & (l' & -> & H1) & H2). exists (l' ++ l2). split; auto.
      apply IHp. eauto 6.
  - split.
    + intros (z & l' & -> & Hu). apply H in Hu. destruct Hu as (a & l1 & l2 & -> & H1 & H2).
      exists a, (SNum f0 args z :: l1), l2. repeat split; eauto.
    + intros (a & l1 & l2 & -> & (z & l' & -> & H1) & H2). exists z, (l' ++ l2). split; auto.
      apply H. eauto 6.
  - split.
    + intros (z & l' & -> & Hu). apply H in Hu. destruct Hu as (a & l1 & l2 & -> & H1 & H2).
      exists a, (STest p args z :: l1), l2. repeat split; eauto.
    + intros (a & l1 & l2 & -> & (z & l' & -> & H1) & H2). exists z, (l' ++ l2). split; auto.
      apply H. eauto 6.
  - split.
    + intros (z & l' & -> & Hu). apply H in Hu. destruct Hu as (a & l1 & l2 & -> & H1 & H2).
      exists a, (SCheck p v z :: l1), l2. repeat split; eauto.
    + intros (a & l1 & l2 & -> & (z & l' & -> & H1) & H2). exists z, (l' ++ l2). split; auto.
      apply H. eauto 6.
Qed.

(** After a step that returns nothing. *)
Lemma ucan_then {E B} (p : uprog E unit) (f : unit -> uprog E B) b (P Q : list said -> Prop) :
  (forall l, ucan p tt l <-> P l) -> (forall l, ucan (f tt) b l <-> Q l) ->
  forall log, ucan (ubind p f) b log <-> exists l1 l2, log = l1 ++ l2 /\ P l1 /\ Q l2.
Proof.
  intros HP HQ log. rewrite ucan_bind. split.
  - intros ([] & l1 & l2 & -> & H1 & H2). exists l1, l2. rewrite <- HP, <- HQ. auto.
  - intros (l1 & l2 & -> & H1 & H2). exists tt, l1, l2. rewrite HP, HQ. auto.
Qed.

Lemma ucan_maperr {E E' A} (g : E -> E') (p : uprog E A) a : forall log,
  ucan (umaperr g p) a log <-> ucan p a log.
Proof.
  induction p; intros log; simpl; try tauto.
  - split; intros (l' & -> & H); exists l'; (split; [auto|]); apply IHp; auto.
  - split; intros (z & l' & -> & H1); exists z, l'; (split; [auto|]); apply H; auto.
  - split; intros (z & l' & -> & H1); exists z, l'; (split; [auto|]); apply H; auto.
  - split; intros (z & l' & -> & H1); exists z, l'; (split; [auto|]); apply H; auto.
Qed.

Lemma ucan_for {E} xs (f : val -> uprog E unit) (P : val -> list said -> Prop) :
  Forall (fun x => forall l, ucan (f x) tt l <-> P x l) xs ->
  forall log, ucan (ufor xs f) tt log <-> in_turn P xs log.
Proof.
  induction 1 as [|x xs Hx HF IH]; intros log; simpl; [tauto|].
  apply (ucan_then (f x) (fun _ => ufor xs f) tt (P x) (in_turn P xs)); auto.
Qed.

Lemma ucan_of_w {E} (p : wprog E unit) : forall l, wdone p -> follows p l ->
  forall log, ucan (of_w p) tt log <-> log = map SWrite l.
Proof.
  induction p as [[]| | | |bs e k IH]; simpl; intros l D F log; try tauto.
  - subst. simpl. tauto.
  - destruct l as [|b l]; [tauto|]. destruct F as [-> F]. simpl. split.
    + intros (l' & -> & H). apply (IH l D F) in H. congruence.
    + intros ->. exists (map SWrite l). split; auto. apply (IH l D F); auto.
Qed.

Lemma ucan_wcheck t k v log : constr_ok t k = true -> has_ty t v ->
  (ucan (u_wcheck k v) tt log <-> heard_check k v log).
Proof.
  intros Hk Hv. pose proof (check_holds k v) as Hc. unfold u_wcheck. rewrite ucan_bind.
  assert (Q : forall k', (forall f, k' <> CFun f) -> (check k' v = CTrue <-> holds k' v) ->
    ((exists a l1 l2, log = l1 ++ l2 /\ ucan (u_holds k' v) a l1 /\
        ucan (if a then URet tt else UErr ValidationFailure) tt l2) <-> log = [] /\ holds k' v)).
  { intros k' Hf Hh. assert (u_holds k' v = match check k' v with
      | CTrue => URet true | CFalse => URet false | CUndef => UUB | CStuck => UStuck end) as ->.
    { destruct k'; auto. elim (Hf f eq_refl). }
    split.
    - intros (a & l1 & l2 & -> & H1 & H2). rewrite <- Hh.
      destruct (check k' v); simpl in H1; try tauto; destruct H1 as [<- ->]; simpl in H2; tauto.
    - intros [-> H]. apply Hh in H. rewrite H. exists true, [], []. simpl. auto. }
  destruct k; try (apply Q; [discriminate|auto]; fail).
  simpl. split.
  - intros (a & l1 & l2 & -> & (b & l' & -> & <- & ->) & H2). destruct b; simpl in H2; [|tauto].
    destruct H2 as [_ ->]. auto.
  - intros ->. exists true, [SCheck f v true], []. simpl. repeat split; auto. exists true, []. auto.
Qed.

Lemma ucan_len c e l n log : len_value e l ->
  (ucan (u_verify_len c e l (Z.of_nat n)) tt log <-> told_len c e l n log).
Proof.
  destruct l; simpl; [tauto|]. intros [vs Hv]. rewrite Hv. simpl. split.
  - intros (z & l' & -> & H). destruct (Z.eqb_spec (to_size c z) (Z.of_nat n)) as [E|]; simpl in H; [|tauto].
    destruct H as [_ ->]. exists vs, z. auto.
  - intros (args & z & E & -> & Hn). inversion E; subst args. exists z, []. split; auto.
    unfold to_size, pow256. rewrite <- Hn, Z.eqb_refl. simpl. auto.
Qed.

Lemma ucan_ladder e seen brs : covers seen e ->
  forallb (fun b => all_in (snd b) seen) brs = true ->
  forall i log, ucan (u_ladder e brs) (Some i) log <-> heard_ladder e brs i log.
Proof.
  intros Hc. induction brs as [|[p ids] brs IH]; simpl; intros H i log.
  - split; [intros [X _]; discriminate|]. tauto.
  - apply andb_true_iff in H. destruct H as [H1 H2].
    destruct (covers_lookups _ _ _ Hc H1) as [vs Hv]. rewrite Hv. simpl. split.
    + intros ([|] & l' & -> & H); simpl in H.
      * destruct H as [E ->]. inversion E; subst. eauto.
      * apply ucan_bind in H. destruct H as (r & l1 & l2 & -> & Ha & E & ->).
        destruct r as [j|]; simpl in E; [|discriminate]. inversion E; subst. rewrite app_nil_r.
        apply (IH H2) in Ha. exists vs, l1. auto.
    + destruct i.
      * intros (args & E & ->). inversion E; subst. exists true, []. simpl. auto.
      * intros (args & l' & E & -> & H). inversion E; subst. exists false, l'. split; auto.
        apply ucan_bind. exists (Some i), l', []. rewrite app_nil_r. simpl. repeat split; auto.
        apply (IH H2); auto.
Qed.

Lemma ucan_type G seen e g n i log : env_has G e -> covers seen e ->
  guide_wf seen g = true -> guide_typed G g n = true ->
  (ucan (u_type e g) (Some i) log <-> heard_guide e g i log).
Proof.
  intros Hg Hc Hw Ht. destruct g; simpl in *.
  - destruct (tlookup G id) as [t|] eqn:E; [|discriminate].
    apply Hg in E. destruct E as (v & Hl & Hv).
    destruct t as [[s'| | |]| | | | | |]; try discriminate. simpl in Hv. destruct v; try tauto.
    rewrite Hl. simpl. rewrite eval_switch_iff. split.
    + intros [H ->]. split; eauto.
    + intros [-> (z' & E & H)]. inversion E; subst. auto.
  - destruct (covers_lookups _ _ _ Hc Hw) as [vs Hv]. rewrite Hv. simpl. split.
    + intros (z & l' & -> & H & ->). exists vs, z. repeat split; auto; apply eval_switch_iff; auto.
    + intros (args & z & E & -> & H). inversion E; subst. exists z, []. repeat split; auto.
      apply eval_switch_iff; auto.
  - eapply ucan_ladder; eauto.
Qed.

Lemma target_sized id t v : has_ty t v ->
  (if ident_is (len_target t) id then exists n, sized_by id t v = Some n /\ val_size v = Some (Z.of_nat n)
   else sized_by id t v = None).
Proof.
  destruct t as [|elt [] b| | |fs r [] b| |]; simpl; auto; intros Hv; destruct v; try tauto;
    destruct (String.eqb _ _); simpl; eauto.
Qed.

Lemma counts_iff c z n : counts c (VZ z) n <-> (Z.of_nat n =? to_size c z) = true.
Proof.
  rewrite Z.eqb_eq. split.
  - intros (z' & E & H). inversion E; subst. exact H.
  - intros H. exists z. auto.
Qed.


Lemma ucan_agrees c seen e id z t v log : wf_ty seen t = true -> covers seen e -> has_ty t v ->
  (ucan (u_cond_agrees e id (to_size c z) t v) true log <-> told_size c e id (VZ z) t v log).
Proof.
  intros Hw Hc Hv. unfold u_cond_agrees.
  destruct t as [| | | | |b p ids|g al]; try (simpl; tauto).
  - cbn [wf_ty] in Hw. apply andb_true_iff in Hw. destruct Hw as [W1 W2].
    destruct v as [| | | |v'| |]; simpl in Hv; try tauto.
    + unfold cond_agrees. cbn [cond_target]. destruct (ident_is _ _); simpl; tauto.
    + pose proof (target_sized id b v' Hv) as Hs. cbn [told_size].
      destruct (ident_is (len_target b) id) eqn:Ei.
      * destruct Hs as (n & -> & ->). destruct (covers_lookups _ _ _ Hc W1) as [vs Hl]. rewrite Hl.
        simpl. split.
        -- intros (a & l' & -> & H). exists vs, a. destruct a; simpl in H; destruct H as [H ->];
             repeat split; auto; try discriminate. intros _. apply counts_iff; auto.
        -- intros (args & a & E & -> & H). inversion E; subst. exists a, []. split; auto.
           destruct a; simpl; split; auto. apply counts_iff; auto.
      * rewrite Hs. simpl. tauto.
  - simpl in Hv. destruct v as [| | | | |i v'|]; try tauto.
    unfold cond_agrees. cbn [cond_target ident_is told_size].
    apply has_alt_nth in Hv. destruct Hv as (t' & k' & E & Hv). rewrite E.
    pose proof (target_sized id t' v' Hv) as Hs.
    destruct (ident_is (len_target t') id) eqn:Ei.
    + destruct Hs as (n & Es & Ev). rewrite Ev. simpl. rewrite <- counts_iff. split.
      * intros [H ->]. split; auto. intros t'' k'' m X Y. inversion X; subst. congruence.
      * intros [-> H]. split; auto. eapply H; eauto.
    + simpl. split; [|tauto]. intros [_ ->]. split; auto. intros t'' k'' m X Y. inversion X; subst. congruence.
Qed.

Lemma ucan_verify c e id z fs : forall seen vs log, wf_fields seen fs = true ->
  covers seen e -> covers (f_ids fs) e -> has_fields fs vs ->
  (ucan (u_verify e id (to_size c z) fs vs) true log <-> told_sizes c e id (VZ z) fs vs log).
Proof.
  induction fs as [|id' t k fs IH]; intros seen [|v vs] log Hw Hc Hc' Hv; simpl in Hv; try tauto.
  - simpl. tauto.
  - cbn [u_verify wf_fields f_ids told_sizes] in *.
    apply andb_true_iff in Hw. destruct Hw as [Hw W3]. apply andb_true_iff in Hw. destruct Hw as [W1 W2].
    destruct Hv as [V1 V2]. 
    assert (IH' : forall l, ucan (u_verify e id (to_size c z) fs vs) true l <->
                            told_sizes c e id (VZ z) fs vs l).
    { intros l. apply (IH (id' :: seen)); auto.
      - intros x [->|Hx]; auto. apply Hc'. left; auto.
      - intros x Hx. apply Hc'. right; auto. }
    rewrite ucan_bind. split.
    + intros (a & l1 & l2 & -> & H1 & H2). apply ucan_bind in H2.
      destruct H2 as (b & l3 & l4 & -> & H2 & E & ->). apply andb_true_iff in E. destruct E as [-> ->].
      exists l1, l3. rewrite app_nil_r. repeat split; auto; [|apply IH'; auto].
      eapply ucan_agrees; eauto.
    + intros (l1 & l2 & -> & H1 & H2). exists true, l1, l2. split; auto.
      split; [eapply ucan_agrees; eauto|]. apply ucan_bind. exists true, l2, [].
      rewrite app_nil_r. repeat split; auto. apply IH'; auto.
Qed.

Lemma told_none c e id w fs : forall vs log, has_fields fs vs -> has_cond_obligation fs id = false ->
  (told_sizes c e id w fs vs log <-> log = []).
Proof.
  induction fs as [|id' t k fs IH]; intros [|v vs] log Hv Ho; simpl in Hv; try tauto.
  - cbn [has_cond_obligation told_sizes] in *. apply orb_false_iff in Ho. destruct Ho as [O1 O2].
    destruct Hv as [V1 V2].
    assert (Q : forall l, told_size c e id w t v l <-> l = []).
    { intros l. unfold has_cond_obligation_of in O1. apply orb_false_iff in O1. destruct O1 as [O1 O3].
      destruct t as [| | | | |b p ids|g al]; simpl; try tauto.
      - simpl in O1, V1. destruct v; try tauto. pose proof (target_sized id b v V1) as Hs.
        rewrite O1 in Hs. rewrite Hs. tauto.
      - simpl in V1. destruct v; try tauto. split; [tauto|]. intros ->. split; auto.
        intros t' k' n Hn Hs. exfalso.
        assert (ident_is (len_target t') id = false).
        { clear -Hn O3. revert i Hn. induction al; simpl in *; intros i Hn; [destruct i; discriminate|].
          apply orb_false_iff in O3. destruct O3. destruct i; [inversion Hn; subst; auto|eauto]. }
        apply has_alt_nth in V1. destruct V1 as (t'' & k'' & E & V). rewrite E in Hn. inversion Hn; subst.
        pose proof (target_sized id t' v V) as X. rewrite H in X. congruence. }
    split.
    + intros (l1 & l2 & -> & H1 & H2). apply Q in H1. apply IH in H2; auto. subst. auto.
    + intros ->. exists [], []. split; auto. split; [apply Q; auto|apply IH; auto].
Qed.

Section Ctx.
Variable fs : fields.
Variable vs : list val.
Hypothesis Hx : wctx fs vs.
Hypothesis Hwf : wf_fields [] fs = true.
Hypothesis Hvs : has_fields fs vs.

Lemma ucan_vtw c id t n v log : ct_wf t = true ->
  match t with TScalar _ | TFloat _ => (n <= csize t)%nat | _ => n = csize t end -> ct_ok t v ->
  (has_cond_obligation fs id = true -> exists s, t = TScalar s) ->
  (ucan (u_verify_then_write c fs vs id t n v) tt log <-> told_out c fs vs id t n v log).
Proof.
  intros Hw Hn Hv Hs.
  assert (F : forall l, ucan (of_w (write_const c t n v)) tt l <-> l = map SWrite (fixed_calls c t n v)).
  { apply ucan_of_w; [apply wdone_const|apply follows_const]; auto. }
  unfold u_verify_then_write, told_out. destruct (has_cond_obligation fs id) eqn:Eh.
  - destruct (Hs eq_refl) as [s ->]. simpl in Hv. destruct v; try tauto.
    assert (V : forall l, ucan (u_verify (mk_env fs vs) id (to_size c z) fs vs) true l <->
                told_sizes c (mk_env fs vs) id (VZ z) fs vs l).
    { intros l. apply (ucan_verify c (mk_env fs vs) id z fs []); auto; [intros ? []|apply (x_cov _ _ Hx)]. }
    rewrite ucan_bind. split.
    + intros (a & l1 & l2 & -> & H1 & H2). destruct a; simpl in H2; [|tauto].
      apply F in H2. exists l1. rewrite <- V, <- H2. auto.
    + intros (l1 & H1 & ->). exists true, l1, (map SWrite (fixed_calls c (TScalar s) n (VZ z))).
      split; auto. split; [apply V; auto|apply F; auto].
  - rewrite F. split.
    + intros ->. exists []. split; auto. apply told_none; auto.
    + intros (l1 & H1 & ->). apply told_none in H1; auto. subst; auto.
Qed.

Lemma ucan_fixed c id k t n v log : ct_wf t = true ->
  match t with TScalar _ | TFloat _ => (n <= csize t)%nat | _ => n = csize t end -> ct_ok t v ->
  constr_ok (FFixed t n) k = true ->
  (is_derived fs id || has_cond_obligation fs id = true -> exists s, t = TScalar s) ->
  (ucan (ubind (if is_derived fs id || is_frozen (FFixed t n) k then URet tt else u_wcheck k v)
               (fun _ => u_write_fixed c fs vs id true k t n v)) tt log <->
   told_fixed c fs vs id k t n v log).
Proof.
  intros Hw Hn Hv Hk Hs. unfold u_write_fixed, told_fixed.
  assert (Hs' : has_cond_obligation fs id = true -> exists s, t = TScalar s).
  { intros H. apply Hs. rewrite H. apply orb_true_r. }
  pose proof (x_derived _ _ Hx c id) as Hd.
  destruct (is_derived fs id) eqn:Ed.
  - destruct (Hs eq_refl) as [s ->]. unfold derive_value. rewrite (x_fold _ _ Hx).
    pose proof (claims_nonneg c id fs vs) as Hnn.
    destruct (claims c id fs vs) as [|z l]; [exfalso; apply Hd; auto|].
    assert (Hz : 0 <= z) by (apply Hnn; left; auto).
    cbn [orb ubind fold_left]. change (record (mkD 0 false true) z) with (mkD z true true).
    destruct (record_agreed l z) as [R1 R2].
    destruct (d_agreed _) eqn:Ea; cbn [negb].
    + assert (HF : Forall (eq z) l) by (apply R1; auto). rewrite R2 by auto.
      assert (Hfi : fits_declared_width c s n z = true <-> fits c s n z) by (apply fits_iff; auto).
      assert (Hc : ct_ok (TScalar s) (VZ (conv s z))) by (simpl; apply conv_in).
      destruct (fits_declared_width c s n z); cbn [negb].
      * rewrite (ucan_then _ _ tt (heard_check k (VZ (conv s z))) (told_out c fs vs id (TScalar s) n (VZ (conv s z)))).
        -- split.
           ++ intros (l1 & l2 & -> & H1 & H2). split; auto. exists s, l1, l2. tauto.
           ++ intros [_ (s' & l1 & l2 & E & _ & -> & H1 & H2)]. inversion E; subst. eauto.
        -- intros l'. apply (ucan_wcheck (FFixed (TScalar s) n)); auto.
        -- intros l'. apply ucan_vtw; auto.
      * simpl. split; [tauto|]. intros [_ (s' & l1 & l2 & E & X & _)]. inversion E; subst.
        apply Hfi in X. discriminate.
    + simpl. split; [tauto|]. intros [X _]. apply R1 in X. congruence.
  - assert (claims c id fs vs = []) as ->.
    { destruct (claims c id fs vs); auto. exfalso. assert (false = true) by (apply Hd; discriminate).
      discriminate. }
    unfold is_frozen. rewrite frozen_pinned. cbn [orb andb].
    destruct (pinned t k) as [w|] eqn:Ep.
    + cbn [ubind]. apply ucan_vtw; auto. eapply pinned_ok; eauto.
    + rewrite (ucan_then _ _ tt (heard_check k v) (told_out c fs vs id t n v)); [tauto| |].
      * intros l'. apply (ucan_wcheck (FFixed t n)); auto.
      * intros l'. apply ucan_vtw; auto.
Qed.
End Ctx.

Definition tl_ty (t : fty) : Prop := forall c fs vs id mem k v G seen log,
  wctx fs vs -> wf_fields [] fs = true -> has_fields fs vs ->
  wf_ty seen t = true -> incl seen (f_ids fs) -> typed_ty G t = true ->
  sub G (tafter [] fs) -> has_ty t v ->
  is_derived fs id || has_cond_obligation fs id = false ->
  (mem = true -> forall t' n, t <> FFixed t' n) ->
  (ucan (u_write c fs vs id mem k t v) tt log <-> told_ty c (mk_env fs vs) t v log).

Definition tl_fields (gs : fields) : Prop := forall c fs vs ws G seen log,
  wctx fs vs -> wf_fields [] fs = true -> has_fields fs vs ->
  wf_fields seen gs = true -> incl seen (f_ids fs) -> incl (f_ids gs) (f_ids fs) ->
  typed_fields G gs = true -> sub G (tafter [] fs) -> members (tafter [] fs) gs ->
  has_fields gs ws ->
  (ucan (u_write_fields c fs vs gs ws) tt log <-> told_fields c fs vs gs ws log).

Definition tl_alts (al : alts) : Prop := forall c fs vs id i v G seen log,
  wctx fs vs -> wf_fields [] fs = true -> has_fields fs vs ->
  wf_alts seen al = true -> incl seen (f_ids fs) -> typed_alts G al = true ->
  sub G (tafter [] fs) -> has_alt al i v ->
  is_derived fs id || has_cond_obligation fs id = false ->
  (ucan (u_write_alts c fs vs id al i v) tt log <-> told_alts c (mk_env fs vs) al i v log).

Lemma tl_cast gs : tl_fields gs -> forall c ws log, wf_fields [] gs = true ->
  typed_fields [] gs = true -> has_fields gs ws ->
  (ucan (u_write_fields c gs ws gs ws) tt log <-> told_fields c gs ws gs ws log).
Proof.
  intros IH c ws log Hw Ht Hv. destruct (wctx_intro gs ws Hw Ht Hv) as [Hx Hm].
  eapply IH; eauto.
  - intros x [].
  - apply incl_refl.
  - intros i t Hl. discriminate.
Qed.

Lemma tl_records gs : tl_fields gs -> forall c xs, wf_fields [] gs = true ->
  typed_fields [] gs = true ->
  Forall (fun x => match x with VRec vs => has_fields gs vs | _ => False end) xs ->
  forall log,
  ucan (ufor xs (fun x => match x with
                          | VRec ws => umaperr fst (u_write_fields c gs ws gs ws)
                          | _ => UStuck
                          end)) tt log <->
  in_turn (fun x l => exists ws, x = VRec ws /\ told_fields c gs ws gs ws l) xs log.
Proof.
  intros IH c xs Hw Ht Hv. apply ucan_for. eapply Forall_impl; [|exact Hv].
  intros x Hx l. destruct x as [| |ws| | | |]; try tauto. rewrite ucan_maperr, (tl_cast gs IH) by auto.
  split; [eauto|]. intros (ws' & E & H). inversion E; subst; auto.
Qed.

Lemma writer_told : (forall t, tl_ty t) /\ (forall gs, tl_fields gs) /\ (forall al, tl_alts al).
Proof.
  apply schema_mutind; unfold tl_ty, tl_alts.
  - intros t n c fs vs id mem k v G seen log Hx Hf Hvs Hw Hi Ht Hs Hv Hd Hm.
    cbn [u_write wf_ty has_ty told_ty] in *. apply andb_true_iff in Hw. destruct Hw as [W1 W2].
    destruct mem; [elim (Hm eq_refl t n eq_refl)|].
    apply orb_false_iff in Hd. destruct Hd as [D1 D2].
    unfold u_write_fixed, u_verify_then_write. rewrite D1, D2. cbn [andb].
    apply ucan_of_w; [apply wdone_const|apply follows_const]; auto; destruct t; lia.
  - intros elt l b c fs vs id mem k v G seen log Hx Hf Hvs Hw Hi Ht Hs Hv Hd Hm.
    cbn [u_write wf_ty typed_ty has_ty told_ty] in *.
    apply andb_true_iff in Hw. destruct Hw as [W1 W2].
    destruct v; try tauto.
    assert (HL : len_value (mk_env fs vs) l).
    { eapply len_value_typed with (G := G) (seen := seen); auto.
      - intros i u E. apply (x_has _ _ Hx), Hs, E.
      - eapply covers_incl; [apply (x_cov _ _ Hx)|auto]. }
    rewrite (ucan_then _ _ tt (told_len c (mk_env fs vs) l (length l0))
               (fun l' => l' = map SWrite (var_calls c elt l0))).
    + split.
      * intros (l1 & l2 & -> & H1 & ->). eauto 6.
      * intros (xs & l1 & E & H1 & ->). inversion E; subst. eauto 6.
    + intros l'. apply ucan_len; auto.
    + apply ucan_of_w; [apply wdone_var|apply follows_var]; auto.
  - intros gs IH c fs vs id mem k v G seen log Hx Hf Hvs Hw Hi Ht Hs Hv Hd Hm.
    cbn [u_write wf_ty typed_ty has_ty told_ty] in *. destruct v as [| |ws| | | |]; try tauto.
    rewrite ucan_maperr, (tl_cast gs IH) by auto.
    split; [eauto|]. intros (ws' & E & H). inversion E; subst; auto.
  - intros n gs IH c fs vs id mem k v G seen log Hx Hf Hvs Hw Hi Ht Hs Hv Hd Hm.
    cbn [u_write wf_ty typed_ty has_ty told_ty] in *.
    destruct v as [|xs| | | | |]; try tauto. destruct Hv as [<- Hv]. rewrite Nat.eqb_refl.
    rewrite (tl_records gs IH) by auto.
    split; [eauto|]. intros (ws' & E & H). inversion E; subst; auto.
  - intros gs IH recsz l b c fs vs id mem k v G seen log Hx Hf Hvs Hw Hi Ht Hs Hv Hd Hm.
    cbn [u_write wf_ty typed_ty has_ty told_ty] in *.
    apply andb_true_iff in Hw. destruct Hw as [Hw W2].
    apply andb_true_iff in Hw. destruct Hw as [W1 W3].
    apply andb_true_iff in Ht. destruct Ht as [T1 T2].
    destruct v as [|xs| | | | |]; try tauto.
    assert (HL : len_value (mk_env fs vs) l).
    { eapply len_value_typed with (G := G) (seen := seen); auto.
      - intros i u E. apply (x_has _ _ Hx), Hs, E.
      - eapply covers_incl; [apply (x_cov _ _ Hx)|auto]. }
    rewrite (ucan_then _ _ tt (told_len c (mk_env fs vs) l (length xs))
      (in_turn (fun x l => exists ws, x = VRec ws /\ told_fields c gs ws gs ws l) xs)).
    + split.
      * intros (l1 & l2 & -> & H1 & H2). exists xs, l1, l2. auto.
      * intros (xs' & l1 & l2 & E & H1 & -> & H2). inversion E; subst. eauto 6.
    + intros l'. apply ucan_len; auto.
    + apply (tl_records gs IH); auto.
  - intros b IH p ids c fs vs id mem k v G seen log Hx Hf Hvs Hw Hi Ht Hs Hv Hd Hm.
    cbn [u_write wf_ty typed_ty has_ty told_ty] in *.
    apply andb_true_iff in Hw. destruct Hw as [W1 W2].
    apply andb_true_iff in Ht. destruct Ht as [_ T2].
    destruct (covers_lookups _ _ ids (covers_incl _ _ _ (x_cov _ _ Hx) Hi) W1) as [args Hl].
    rewrite Hl. destruct v as [| | | |v'| |]; try tauto.
    + simpl. split.
      * intros (a & l' & -> & H). destruct a; simpl in H; [tauto|]. destruct H as [_ ->].
        exists args. auto.
      * intros (args' & E & [[_ ->]|(v' & l' & X & _)]); [|discriminate]. inversion E; subst.
        exists false, []. simpl. auto.
    + assert (IH' : forall l, ucan (u_write c fs vs id false CNone b v') tt l <->
                              told_ty c (mk_env fs vs) b v' l).
      { intros l. eapply IH; eauto. discriminate. }
      cbn [ucan]. split.
      * intros (a & l' & -> & H). destruct a; [|simpl in H; tauto]. apply IH' in H.
        exists args. split; auto. right. eauto.
      * intros (args' & E & [[X _]|(v'' & l' & X & -> & H)]); [discriminate|].
        inversion E; inversion X; subst. exists true, l'. split; auto. apply IH'; auto.
  - intros g al IH c fs vs id mem k v G seen log Hx Hf Hvs Hw Hi Ht Hs Hv Hd Hm.
    cbn [u_write wf_ty typed_ty has_ty told_ty] in *.
    apply andb_true_iff in Hw. destruct Hw as [W1 W2].
    apply andb_true_iff in Ht. destruct Ht as [T1 T2].
    destruct v as [| | | | |i v|]; try tauto.
    assert (Hal : forall l, ucan (u_write_alts c fs vs id al i v) tt l <->
                            told_alts c (mk_env fs vs) al i v l) by (intros l; eauto).
    assert (Q : forall j l, ucan (u_type (mk_env fs vs) g) (Some j) l <-> heard_guide (mk_env fs vs) g j l).
    { intros j l. eapply ucan_type with (G := G) (seen := seen); eauto.
      - intros j' u E. apply (x_has _ _ Hx), Hs, E.
      - eapply covers_incl; [apply (x_cov _ _ Hx)|auto]. }
    assert (R : (forall id' s cases, g <> GField id' s cases) ->
      (ucan (ubind (u_type (mk_env fs vs) g) (fun r =>
                match r with
                | Some j =>
                    if Nat.eqb j i then u_write_alts c fs vs id al i v
                    else UErr ValidationFailure
                | None => UErr TypeDeductionFailure
                end)) tt log <->
       exists i' v' log1 log2, VAlt i v = VAlt i' v' /\ heard_guide (mk_env fs vs) g i' log1 /\
         told_alts c (mk_env fs vs) al i' v' log2 /\ log = log1 ++ log2)).
    { intros _. rewrite ucan_bind. split.
      - intros (r & l1 & l2 & -> & H1 & H2). destruct r as [j|]; [|simpl in H2; tauto].
        destruct (Nat.eqb_spec j i) as [->|]; [|simpl in H2; tauto].
        apply Q in H1. apply Hal in H2. exists i, v, l1, l2. auto.
      - intros (i' & v' & l1 & l2 & E & H1 & H2 & ->). inversion E; subst.
        exists (Some i'), l1, l2. rewrite Nat.eqb_refl. split; auto.
        split; [apply Q; auto|apply Hal; auto]. }
    destruct g; cbn [told_guide]; try (apply R; discriminate).
    rewrite Hal. split.
    + intros H. exists i, v, [], log. auto.
    + intros (i' & v' & l1 & l2 & E & -> & H2 & ->). inversion E; subst. auto.
  - intros c fs vs ws G seen log Hx Hf Hvs Hw Hi Hi' Ht Hs Hm Hv. destruct ws; [|simpl in Hv; tauto].
    simpl. tauto.
  - intros id t IHt k gs IHgs c fs vs ws G seen log Hx Hf Hvs Hw Hi Hi' Ht Hs Hm Hv.
    destruct ws as [|w ws]; [simpl in Hv; tauto|].
    cbn [u_write_fields wf_fields typed_fields has_fields members f_ids told_fields] in *.
    apply andb_true_iff in Hw. destruct Hw as [Hw W3]. apply andb_true_iff in Hw. destruct Hw as [W1 W2].
    apply andb_true_iff in Ht. destruct Ht as [Ht T3]. apply andb_true_iff in Ht. destruct Ht as [T1 T2].
    destruct Hv as [V1 V2]. destruct Hm as [M1 M2].
    apply ucan_then.
    2: { intros l. apply (IHgs c fs vs ws ((id, t) :: G) (id :: seen)); auto.
      * intros x [->|Hin]; auto. apply Hi'. left; auto.
      * intros x Hin. apply Hi'. right; auto.
      * intros i u. simpl. destruct (String.eqb_spec id i); auto. intros E; inversion E; subst; auto. }
    intros l. rewrite ucan_maperr.
    destruct (match t with FFixed _ _ => true | _ => false end) eqn:Et.
    + destruct t as [t n| | | | | |]; try discriminate. cbn [u_write].
      cbn [wf_ty] in W2. apply andb_true_iff in W2. destruct W2 as [W2 W4].
      apply ucan_fixed; auto.
      * destruct t; lia.
      * intros H. destruct (x_scalar _ _ Hx _ H) as (s & m & E). rewrite M1 in E. inversion E; eauto.
    + assert (Hd : is_derived fs id || has_cond_obligation fs id = false).
      { destruct (is_derived fs id || has_cond_obligation fs id) eqn:E; auto.
        destruct (x_scalar _ _ Hx _ E) as (s & m & E'). rewrite M1 in E'. inversion E'; subst. discriminate. }
      assert (Hz : is_frozen t k = false).
      { destruct t; try discriminate; reflexivity. }
      assert (Hd' : is_derived fs id = false) by (apply orb_false_iff in Hd; tauto).
      rewrite Hz, Hd'. cbn [orb].
      rewrite (ucan_then _ _ tt (heard_check k w) (told_ty c (mk_env fs vs) t w)).
      * destruct t; try discriminate; tauto.
      * intros l'. eapply ucan_wcheck; eauto.
      * intros l'. eapply IHt; eauto. intros _ t' n ->. discriminate.
  - intros c fs vs id i v G seen log _ _ _ _ _ _ _ Hv. simpl in Hv. tauto.
  - intros t IHt k al IHal c fs vs id i v G seen log Hx Hf Hvs Hw Hi Ht Hs Hv Hd.
    cbn [u_write_alts wf_alts typed_alts has_alt told_alts] in *.
    apply andb_true_iff in Hw. destruct Hw as [W1 W2].
    apply andb_true_iff in Ht. destruct Ht as [Ht T3].
    apply andb_true_iff in Ht. destruct Ht as [Ht T2].
    apply andb_true_iff in Ht. destruct Ht as [_ T1].
    destruct i.
    + apply ucan_then.
      * intros l. eapply ucan_wcheck; eauto.
      * intros l. eapply IHt; eauto. discriminate.
    + eapply IHal; eauto.
Qed.

(** ** Runs *)

Lemma ucan_run {E A} (H : host) (p : uprog E A) : writes_only p -> forall s a s' ev,
  urun H p s = (Ok a, s', ev) -> ucan p a (flat_map said_of ev).
Proof.
  induction p; simpl; intros W s a' s' ev R; try discriminate; try tauto.
  - inversion R; subst. auto.
  - destruct (h_write H s bs) as [[[|]|] s1]; try discriminate.
    destruct (urun H p s1) as [[o1 s2] ev1] eqn:Q. injection R as -> <- <-. simpl. eauto.
  - destruct (h_num H s f args) as [[z|] s1]; try discriminate.
    destruct (urun H (k z) s1) as [[o1 s2] ev1] eqn:Q. injection R as -> <- <-. simpl. eauto 6.
  - destruct (h_test H s p args) as [[z|] s1]; try discriminate.
    destruct (urun H (k z) s1) as [[o1 s2] ev1] eqn:Q. injection R as -> <- <-. simpl. eauto 6.
  - destruct (h_check H s p v) as [[z|] s1]; try discriminate.
    destruct (urun H (k z) s1) as [[o1 s2] ev1] eqn:Q. injection R as -> <- <-. simpl. eauto 6.
Qed.

Lemma run_ucan {E A} (p : uprog E A) : forall a log, ucan p a log ->
  exists ev, urun by_script p log = (Ok a, [], ev) /\ flat_map said_of ev = log.
Proof.
  induction p; simpl; intros a' log C; try tauto.
  - destruct C as [-> ->]. eauto.
  - destruct C as (l & -> & C). destruct (IHp _ _ C) as (ev & R & E1). simpl. rewrite R.
    eexists. split; [reflexivity|]. simpl. congruence.
  - destruct C as (z & l & -> & C). destruct (H _ _ _ C) as (ev & R & E1). simpl. rewrite R.
    eexists. split; [reflexivity|]. simpl. congruence.
  - destruct C as (z & l & -> & C). destruct (H _ _ _ C) as (ev & R & E1). simpl. rewrite R.
    eexists. split; [reflexivity|]. simpl. congruence.
  - destruct C as (z & l & -> & C). destruct (H _ _ _ C) as (ev & R & E1). simpl. rewrite R.
    eexists. split; [reflexivity|]. simpl. congruence.
Qed.

Lemma write_log c fs vs : wf fs = true -> typed fs = true -> has_fields fs vs ->
  (forall H s s' ev, urun H (u_stream_cast c fs vs) s = (Ok tt, s', ev) ->
     told_fields c fs vs fs vs (flat_map said_of ev)) /\
  (forall log, told_fields c fs vs fs vs log ->
     exists ev, urun by_script (u_stream_cast c fs vs) log = (Ok tt, [], ev) /\
                flat_map said_of ev = log).
Proof.
  intros Hw Ht Hv. destruct writer_told as (_ & HF & _).
  pose proof (fun log => tl_cast fs (HF fs) c vs log Hw Ht Hv) as Q. split.
  - intros H s s' ev R. apply Q. apply (ucan_run H) in R; auto.
    destruct writer_calls_any as (_ & HG & _).
    eapply (uw_writes True). apply (uw_cast fs (HG fs) True c vs Hw Ht); auto.
  - intros log T. apply run_ucan. apply Q; auto.
Qed.
