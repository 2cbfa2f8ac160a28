(** A read that fails hears exactly what UserFailSpec.v says. *)
From Coq Require Import ZifyBool ZifyNat.
From Verif Require Import UserFailSpec Typing BytesFacts ProgFacts ReadFacts ReadMore Safety CallFacts
  UserRead UserLogRead ExactFacts RExactFacts.

(** The program fails with [x] after hearing [log] and being given [out]. *)
Fixpoint rfail {E A} (p : uprog E A) (x : E) (log : list said) (out : list Z) : Prop :=
  match p with
  | UErr e => e = x /\ log = [] /\ out = []
  | URet _ | UUB | UStuck => False
  | URead n e k =>
      (e = x /\ log = [SShort n] /\ out = []) \/
      exists bs log' out', length bs = Z.to_nat n /\ Forall byte_ok bs /\ log = SRead n :: log' /\
                      out = bs ++ out' /\ rfail (k bs) x log' out'
  | UAlloc n k => exists log', log = SMem n :: log' /\ rfail k x log' out
  | UWrite bs e k =>
      (e = x /\ log = [SRefused bs] /\ out = []) \/
      exists log', log = SWrite bs :: log' /\ rfail k x log' out
  | UNum f args k => exists z log', log = SNum f args z :: log' /\ rfail (k z) x log' out
  | UTest p args k => exists b log', log = STest p args b :: log' /\ rfail (k b) x log' out
  | UCheck p v k => exists b log', log = SCheck p v b :: log' /\ rfail (k b) x log' out
  end.

Lemma rfail_bind {E A B} (p : uprog E A) (f : A -> uprog E B) x : forall log out,
  rfail (ubind p f) x log out <->
  rfail p x log out \/
  exists a l1 l2 o1 o2, log = l1 ++ l2 /\ out = o1 ++ o2 /\ rcan p a l1 o1 /\ rfail (f a) x l2 o2.
Proof.
  induction p; intros log out; simpl.
  - split.
    + intros H. right. exists a, [], log, [], out. auto 6.
    + intros [[]|(a' & l1 & l2 & o1 & o2 & -> & -> & (-> & -> & ->) & H)]. exact H.
  - split; [auto|]. intros [H|(? & ? & ? & ? & ? & _ & _ & [] & _)]. auto.
  - split; [tauto|intros [[]|(? & ? & ? & ? & ? & _ & _ & [] & _)]].
  - split; [tauto|intros [[]|(? & ? & ? & ? & ? & _ & _ & [] & _)]].
  - split.
    + intros [H'|(bs & l' & o' & L & B' & -> & -> & Hu)]; [auto|]. apply H in Hu.
      destruct Hu as [Hu|(a & l1 & l2 & o1 & o2 & -> & -> & H1 & H2)].
      * left. right. eauto 8.
      * right. exists a, (SRead n :: l1), l2, (bs ++ o1), o2. rewrite <- app_assoc. repeat split; eauto 9.
    + intros [[H'|(bs & l' & o' & L & B' & -> & -> & Hu)]|
              (a & l1 & l2 & o1 & o2 & -> & -> & (bs & l' & o' & L & B' & -> & -> & H1) & H2)]; [auto| |].
      * right. exists bs, l', o'. repeat split; auto. apply H; auto.
      * right. exists bs, (l' ++ l2), (o' ++ o2). rewrite <- app_assoc. repeat split; auto.
        apply H. right. exists a, l', l2, o', o2. auto.
  - split.
    + intros (l' & -> & H). apply IHp in H. destruct H as [H|(a & l1 & l2 & o1 & o2 & -> & -> & H1 & H2)]; [eauto|].
      right. exists a, (SMem n :: l1), l2, o1, o2. repeat split; eauto.
    + intros [(l' & -> & H)|(a & l1 & l2 & o1 & o2 & -> & -> & (l' & -> & H1) & H2)].
      * exists l'. split; auto. apply IHp; auto.
      * exists (l' ++ l2). split; auto. apply IHp. right. exists a, l', l2, o1, o2. auto.
  - split.
    + intros [H'|(l' & -> & H)]; [auto|]. apply IHp in H.
      destruct H as [H|(a & l1 & l2 & o1 & o2 & -> & -> & H1 & H2)]; [eauto 6|].
      right. exists a, (SWrite bs :: l1), l2, o1, o2. repeat split; eauto.
    + intros [[H'|(l' & -> & H)]|(a & l1 & l2 & o1 & o2 & -> & -> & (l' & -> & H1) & H2)]; [auto| |].
      * right. exists l'. split; auto. apply IHp; auto.
      * right. exists (l' ++ l2). split; auto. apply IHp. right. exists a, l', l2, o1, o2. auto.
  - split.
    + intros (z & l' & -> & Hu). apply H in Hu. destruct Hu as [Hu|(a & l1 & l2 & o1 & o2 & -> & -> & H1 & H2)]; [eauto 6|].
      right. exists a, (SNum f0 args z :: l1), l2, o1, o2. repeat split; eauto.
    + intros [(z & l' & -> & Hu)|(a & l1 & l2 & o1 & o2 & -> & -> & (z & l' & -> & H1) & H2)].
      * exists z, l'. split; auto. apply H; auto.
      * exists z, (l' ++ l2). split; auto. apply H. right. exists a, l', l2, o1, o2. auto.
  - split.
    + intros (z & l' & -> & Hu). apply H in Hu. destruct Hu as [Hu|(a & l1 & l2 & o1 & o2 & -> & -> & H1 & H2)]; [eauto 6|].
      right. exists a, (STest p args z :: l1), l2, o1, o2. repeat split; eauto.
    + intros [(z & l' & -> & Hu)|(a & l1 & l2 & o1 & o2 & -> & -> & (z & l' & -> & H1) & H2)].
      * exists z, l'. split; auto. apply H; auto.
      * exists z, (l' ++ l2). split; auto. apply H. right. exists a, l', l2, o1, o2. auto.
  - split.
    + intros (z & l' & -> & Hu). apply H in Hu. destruct Hu as [Hu|(a & l1 & l2 & o1 & o2 & -> & -> & H1 & H2)]; [eauto 6|].
      right. exists a, (SCheck p v z :: l1), l2, o1, o2. repeat split; eauto.
    + intros [(z & l' & -> & Hu)|(a & l1 & l2 & o1 & o2 & -> & -> & (z & l' & -> & H1) & H2)].
      * exists z, l'. split; auto. apply H; auto.
      * exists z, (l' ++ l2). split; auto. apply H. right. exists a, l', l2, o1, o2. auto.
Qed.

Lemma rfail_map {E A B} (p : uprog E A) (f : A -> B) x log out :
  rfail (ubind p (fun a => URet (f a))) x log out <-> rfail p x log out.
Proof. rewrite rfail_bind. simpl. split; [|auto]. intros [H|(? & ? & ? & ? & ? & _ & _ & _ & [])]. auto. Qed.

Lemma rfail_maperr {E E' A} (g : E -> E') (p : uprog E A) x : forall log out,
  rfail (umaperr g p) x log out <-> exists y, x = g y /\ rfail p y log out.
Proof.
  induction p; intros log out; simpl.
  - split; [tauto|intros (? & _ & [])].
  - split; [intros (<- & -> & ->); eauto|]. intros (y & -> & <- & -> & ->). auto.
  - split; [tauto|intros (? & _ & [])].
  - split; [tauto|intros (? & _ & [])].
  - split.
    + intros [(<- & -> & ->)|(bs & l' & o' & L & B & -> & -> & H1)]; [eauto 8|].
      apply H in H1. destruct H1 as (y & -> & H1). exists y. split; auto. right. eauto 9.
    + intros (y & -> & [(<- & -> & ->)|(bs & l' & o' & L & B & -> & -> & H1)]); [auto|].
      right. exists bs, l', o'. repeat split; auto. apply H; eauto.
  - split; [intros (l' & -> & H)|intros (y & -> & l' & -> & H)].
    + apply IHp in H. destruct H as (y & -> & H). eauto.
    + exists l'. split; auto. apply IHp; eauto.
  - split.
    + intros [(<- & -> & ->)|(l' & -> & H1)]; [eauto 8|].
      apply IHp in H1. destruct H1 as (y & -> & H1). exists y. split; auto. right. eauto 9.
    + intros (y & -> & [(<- & -> & ->)|(l' & -> & H1)]); [auto|].
      right. exists l'. split; auto. apply IHp; eauto.
  - split; [intros (z & l' & -> & H1)|intros (y & -> & z & l' & -> & H1)].
    + apply H in H1. destruct H1 as (y & -> & H1). exists y. split; auto. eauto.
    + exists z, l'. split; auto. apply H; eauto.
  - split; [intros (z & l' & -> & H1)|intros (y & -> & z & l' & -> & H1)].
    + apply H in H1. destruct H1 as (y & -> & H1). exists y. split; auto. eauto.
    + exists z, l'. split; auto. apply H; eauto.
  - split; [intros (z & l' & -> & H1)|intros (y & -> & z & l' & -> & H1)].
    + apply H in H1. destruct H1 as (y & -> & H1). exists y. split; auto. eauto.
    + exists z, l'. split; auto. apply H; eauto.
Qed.

Lemma rfail_rep {E} (p : uprog E val) (P : val -> list said -> Prop) (enc : val -> list Z) n x :
  (forall y l o, rcan p y l o <-> P y l /\ o = enc y) ->
  forall log out, rfail (urep n p) x log out <->
    exists xs l1 l2 o2, (length xs < n)%nat /\ in_turn P xs l1 /\ rfail p x l2 o2 /\
      log = l1 ++ l2 /\ out = flat_map enc xs ++ o2.
Proof.
  intros H. induction n; intros log out; simpl.
  - split; [tauto|]. intros (xs & l1 & l2 & o2 & L & _). lia.
  - rewrite rfail_bind. split.
    + intros [H1|(a & l1 & l2 & o1 & o2 & -> & -> & H1 & H2)].
      * exists [], [], log, out. simpl. repeat split; auto. lia.
      * apply rfail_map in H2. apply IHn in H2. destruct H2 as (xs & l3 & l4 & o4 & L & T & H2 & -> & ->).
        apply H in H1. destruct H1 as [H1 ->]. exists (a :: xs), (l1 ++ l3), l4, o4. simpl.
        rewrite !app_assoc. repeat split; auto; [lia|]. eauto 6.
    + intros (xs & l1 & l2 & o2 & L & T & H2 & -> & ->). destruct xs as [|y xs]; simpl in *.
      * subst l1. auto.
      * right. destruct T as (l3 & l4 & -> & T1 & T2). exists y, l3, (l4 ++ l2), (enc y), (flat_map enc xs ++ o2).
        rewrite !app_assoc. repeat split; auto; [apply H; auto|]. apply rfail_map, IHn.
        exists xs, l4, l2, o2. repeat split; auto. lia.
Qed.

Lemma rfail_fixed c t n x log out : (n <= csize t)%nat ->
  (rfail (of_r (read_fixed c t n)) x log out <->
   x = BufferExhaustion /\ log = [SShort (Z.of_nat n)] /\ out = []).
Proof.
  intros Hn. unfold read_fixed. destruct (Nat.ltb_spec (csize t) n); [lia|]. simpl. split.
  - intros [(<- & -> & ->)|(bs & l' & o' & L & B & -> & -> & H1)]; auto.
    destruct (load c t (overlay (csize t) bs)) as [v'|]; simpl in H1; tauto.
  - intros (-> & -> & ->). auto.
Qed.

Lemma of_r_bind_fail {E A B} (p : rprog E A) (f : A -> rprog E B) b : forall log out,
  rfail (of_r (rbind p f)) b log out <-> rfail (ubind (of_r p) (fun a => of_r (f a))) b log out.
Proof.
  induction p; intros log out; simpl; try tauto.
  - split; (intros [H'|(bs & l' & o' & L & B' & -> & -> & H1)]; [auto|]); right; exists bs, l', o';
      repeat split; auto; apply H; auto.
  - split; intros (l' & -> & H); exists l'; (split; [auto|]); apply IHp; auto.
Qed.

Lemma rfail_pieces {E} esz (e x : E) n : forall log out,
  rfail (of_r (rrep n (RRead (Z.of_nat esz) e (fun bs => RRet bs)))) x log out <->
  e = x /\ exists k, (k < n)%nat /\ log = repeat (SRead (Z.of_nat esz)) k ++ [SShort (Z.of_nat esz)] /\
    length out = (k * esz)%nat /\ Forall byte_ok out.
Proof.
  induction n; intros log out.
  - simpl. split; [tauto|]. intros (_ & k & L & _). lia.
  - cbn [rrep]. rewrite of_r_bind_fail. simpl. rewrite Nat2Z.id. split.
    + intros [(<- & -> & ->)|(bs & l' & o' & L & B & -> & -> & H)].
      * split; auto. exists O. simpl. repeat split; auto. lia.
      * apply of_r_bind_fail in H. simpl in H. apply rfail_map in H. apply IHn in H.
        destruct H as (<- & k & Hk & -> & L' & F). split; auto. exists (S k). simpl.
        repeat split; auto; [lia|rewrite app_length; lia|apply Forall_app; auto].
    + intros (<- & k & Hk & -> & L & F). destruct k; simpl in *.
      * left. destruct out; [auto|discriminate].
      * right. exists (firstn esz out), (repeat (SRead (Z.of_nat esz)) k ++ [SShort (Z.of_nat esz)]), (skipn esz out).
        rewrite firstn_skipn, firstn_length. repeat split; auto; [lia|apply Forall_firstn; auto|].
        apply of_r_bind_fail. simpl. apply rfail_map, IHn. split; auto. exists k.
        rewrite skipn_length. repeat split; auto; [lia|lia|apply Forall_skipn; auto].
Qed.

Lemma rfail_var c elt n b x log out : ct_wf elt = true ->
  (rfail (of_r (read_var c elt (Z.of_nat n) b)) x log out <->
   (~ within c b (Z.of_nat (csize elt)) n /\ x = ExcessiveLength /\ log = [] /\ out = []) \/
   (within c b (Z.of_nat (csize elt)) n /\ x = BufferExhaustion /\
    exists l3, log = SMem (Z.of_nat n * Z.of_nat (csize elt)) :: l3 /\ short_of c (csize elt) n l3 out)).
Proof.
  intros Hw. pose proof (csize_pos _ Hw) as Hp. unfold read_var.
  rewrite <- len_allowed_iff by lia.
  destruct (len_allowed (ceiling c b) (Z.of_nat (csize elt)) (Z.of_nat n)) eqn:A.
  2: { simpl. split; [intros (<- & -> & ->); left; repeat split; auto; discriminate|].
       intros [(_ & -> & -> & ->)|(X & _)]; [auto|discriminate]. }
  pose proof (allowed_product _ _ _ _ (Zle_0_nat n) (Zle_0_nat (csize elt)) A) as Hts.
  cbn [of_r rfail].
  assert (Q : forall l o, rfail (of_r (rbind (read_raw c (Z.of_nat (csize elt)) (Z.of_nat n))
      (fun mem => match sequence (map (load c elt) (chunks (csize elt) (Z.to_nat (Z.of_nat n)) mem)) with
                  | Some vs => RRet (VSeq vs) | None => RUB end))) x l o <->
      x = BufferExhaustion /\ short_of c (csize elt) n l o).
  { intros l o. rewrite of_r_bind_fail, rfail_bind. split.
    - intros [H|(mem & l1 & l2 & o1 & o2 & -> & -> & H1 & H2)].
      + unfold read_raw, short_of in *. destruct (c_cx c).
        * apply of_r_bind_fail in H. cbn [of_r] in H. apply rfail_map in H. apply rfail_pieces in H.
          rewrite Nat2Z.id in H. destruct H as [<- H]. auto.
        * simpl in H. rewrite Hts in H. destruct H as [(<- & -> & ->)|(? & ? & ? & _ & _ & _ & _ & [])]. auto.
      + destruct (sequence _); simpl in H2; tauto.
    - intros [-> H]. left. unfold read_raw, short_of in *. destruct (c_cx c).
      + apply of_r_bind_fail. cbn [of_r]. apply rfail_map, rfail_pieces. rewrite Nat2Z.id. auto.
      + simpl. rewrite Hts. left. destruct H as [-> ->]. auto. }
  split.
  - intros (l' & -> & H). apply Q in H. destruct H as [-> H]. right. repeat split; auto. eauto.
  - intros [(X & _)|(_ & -> & l3 & -> & H)]; [elim X; auto|]. exists l3. split; auto. apply Q; auto.
Qed.

Lemma rfail_len c e l x log out : ~ rfail (u_len c e l) x log out.
Proof.
  destruct l; simpl.
  - destruct (lookup e id) as [[z| | | | | |]|]; simpl; tauto.
  - destruct (lookups e ids); simpl; try tauto. intros (? & ? & _ & []).
Qed.

Lemma rfail_sized {B} c e E l seen (f : Z -> uprog reason B) x log out :
  len_value e l -> len_wf seen l = true -> agree seen e E ->
  (rfail (ubind (u_len c e l) f) x log out <->
   exists n l1 l2, log = l1 ++ l2 /\ heard_len c E l n l1 /\ rfail (f (Z.of_nat n)) x l2 out).
Proof.
  intros Hv Hw Ha. rewrite rfail_bind. split.
  - intros [H|(z & l1 & l2 & o1 & o2 & -> & -> & H1 & H2)]; [elim (rfail_len _ _ _ _ _ _ H)|].
    pose proof (u_len_nonneg _ _ _ _ _ _ H1) as Hz.
    rewrite <- (Z2Nat.id z Hz) in *. eapply rcan_len in H1; eauto. destruct H1 as [H1 ->].
    exists (Z.to_nat z), l1, l2. auto.
  - intros (n & l1 & l2 & -> & H1 & H2). right. exists (Z.of_nat n), l1, l2, [], out. repeat split; auto.
    eapply rcan_len; eauto.
Qed.

Lemma rfail_ladder e brs x : forall log out, ~ rfail (u_ladder e brs) x log out.
Proof.
  induction brs as [|[p ids] brs IH]; simpl; intros log out H; [tauto|].
  destruct (lookups e ids); simpl in H; [|tauto]. destruct H as ([|] & l' & _ & H); simpl in H; [tauto|].
  apply rfail_map in H. eapply IH; eauto.
Qed.

Lemma rfail_type e g x log out : ~ rfail (u_type e g) x log out.
Proof.
  destruct g; simpl; intros H.
  - destruct (lookup e id) as [[z| | | | | |]|]; simpl in H; tauto.
  - destruct (lookups e ids); simpl in H; [|tauto]. destruct H as (? & ? & _ & []).
  - eapply rfail_ladder; eauto.
Qed.

Lemma rcan_ladder_none e E seen brs : covers seen e -> agree seen e E ->
  forallb (fun b => all_in (snd b) seen) brs = true ->
  forall log out, rcan (u_ladder e brs) None log out <-> none_held E brs log /\ out = [].
Proof.
  intros Hc Ha. induction brs as [|[p ids] brs IH]; simpl; intros H log out.
  - split; [intros (_ & -> & ->); auto|]. intros [-> ->]. auto.
  - apply andb_true_iff in H. destruct H as [H1 H2].
    rewrite <- (agree_lookups _ _ _ _ Ha H1).
    destruct (covers_lookups _ _ _ Hc H1) as [vs Hv]. rewrite Hv. simpl. split.
    + intros ([|] & l' & -> & H); simpl in H.
      * destruct H as (E1 & _). discriminate.
      * apply rcan_map in H. destruct H as (r & E1 & H).
        destruct r as [j|]; simpl in E1; [discriminate|].
        apply (IH H2) in H. destruct H. split; auto. exists vs, l'. auto.
    + intros [(args & l' & E1 & -> & H) ->]. inversion E1; subst. exists false, l'. split; auto.
      apply rcan_map. exists None. split; auto. apply (IH H2); auto.
Qed.

Lemma switch_none s z cases : eval_switch s z cases = None <-> forall i, ~ first_case s z cases i.
Proof.
  split.
  - intros H i X. apply eval_switch_iff in X. congruence.
  - intros H. destruct (eval_switch s z cases) as [i|] eqn:E; auto. apply eval_switch_iff in E. elim (H i E).
Qed.

Lemma rcan_type_none G seen e E g n log out : env_has G e -> covers seen e -> agree seen e E ->
  guide_wf seen g = true -> guide_typed G g n = true ->
  (rcan (u_type e g) None log out <-> unguided E g log /\ out = []).
Proof.
  intros Hg Hc Ha Hw Ht. destruct g; simpl in *.
  - destruct (tlookup G id) as [t|] eqn:Et; [|discriminate].
    apply Hg in Et. destruct Et as (v & Hl & Hv).
    destruct t as [[s'| | |]| | | | | |]; try discriminate. simpl in Hv. destruct v; try tauto.
    rewrite <- (Ha id Hw), Hl. simpl. rewrite switch_none. split.
    + intros (H & -> & ->). repeat split; eauto.
    + intros [[-> (z' & E1 & H)] ->]. inversion E1; subst. auto.
  - rewrite <- (agree_lookups _ _ _ _ Ha Hw).
    destruct (covers_lookups _ _ _ Hc Hw) as [vs Hv]. rewrite Hv. simpl. split.
    + intros (z & l' & -> & H & -> & ->). split; auto.
      exists vs, z. repeat split; auto; apply switch_none; auto.
    + intros [(args & z & E1 & -> & H) ->]. inversion E1; subst. exists z, []. repeat split; auto.
      apply switch_none; auto.
  - eapply rcan_ladder_none; eauto.
Qed.

Lemma rfail_rcheck t k v x log out : constr_ok t k = true -> has_ty t v ->
  (rfail (u_rcheck k v) x log out <-> x = ValidationFailure /\ refused k v log /\ out = []).
Proof.
  intros Hk Hv. pose proof (check_violates t k v Hk Hv) as Hc. unfold u_rcheck. rewrite rfail_bind.
  assert (Q : (forall f, k <> CFun f) ->
    ((rfail (u_holds k v) x log out \/
      exists a l1 l2 o1 o2, log = l1 ++ l2 /\ out = o1 ++ o2 /\ rcan (u_holds k v) a l1 o1 /\
        rfail (if a then URet v else UErr ValidationFailure) x l2 o2) <->
     x = ValidationFailure /\ (log = [] /\ violates k v) /\ out = [])).
  { intros Hf. assert (u_holds k v = match check k v with
      | CTrue => URet true | CFalse => URet false | CUndef => UUB | CStuck => UStuck end) as ->.
    { destruct k; auto. elim (Hf f eq_refl). }
    split.
    - intros [H|(a & l1 & l2 & o1 & o2 & -> & -> & H1 & H2)].
      + destruct (check k v); simpl in H; tauto.
      + rewrite <- Hc. destruct (check k v); simpl in H1; try tauto; destruct H1 as (<- & -> & ->); simpl in H2; try tauto.
        destruct H2 as (<- & -> & ->). auto.
    - intros (-> & [-> H] & ->). apply Hc in H. rewrite H. right. exists false, [], [], [], []. simpl. auto 7. }
  destruct k; try (apply Q; discriminate).
  simpl. split.
  - intros [(b & l' & _ & [])|(a & l1 & l2 & o1 & o2 & -> & -> & (b & l' & -> & <- & -> & ->) & H2)].
    destruct b; simpl in H2; [tauto|]. destruct H2 as (<- & -> & ->). auto.
  - intros (-> & -> & ->). right. exists false, [SCheck f v false], [], [], []. simpl. repeat split; auto.
    exists false, []. auto.
Qed.

(** ** Everything *)

Definition rx_ty (t : fty) : Prop := forall c G seen e E x log out,
  wf_ty seen t = true -> typed_ty G t = true -> env_has G e -> covers seen e -> agree seen e E ->
  (rfail (u_read c e t) x log out <-> stops_ty c E t x log out).
Definition rx_fields (fs : fields) : Prop := forall c G seen e E x id log out,
  wf_fields seen fs = true -> typed_fields G fs = true -> env_has G e -> covers seen e -> dom fs e ->
  agree seen e E -> (forall i, memb i seen = false -> lookup E i = None) ->
  (rfail (u_read_fields c e fs) (x, id) log out <-> stops_fields c E fs x id log out).
Definition rx_alts (al : alts) : Prop := forall c G seen e E i x log out,
  wf_alts seen al = true -> typed_alts G al = true -> env_has G e -> covers seen e -> agree seen e E ->
  (rfail (u_read_alts c e al i) x log out <-> stops_alts c E al i x log out).

Lemma rx_cast fs : rx_fields fs -> forall c x id log out,
  wf_fields [] fs = true -> typed_fields [] fs = true ->
  (rfail (u_read_fields c (mk_env fs (default_fields fs)) fs) (x, id) log out <->
   stops_fields c [] fs x id log out).
Proof.
  intros IH c x id log out Hw Ht. apply (IH c [] []); auto.
  - intros ? ? Hl; discriminate.
  - intros ? [].
  - apply dom_mk_env, default_fields_length.
  - intros i; discriminate.
Qed.

Lemma rx_record fs : rx_fields fs -> forall c x log out,
  wf_fields [] fs = true -> typed_fields [] fs = true ->
  (rfail (ubind (umaperr fst (u_read_fields c (mk_env fs (default_fields fs)) fs)) (fun vs => URet (VRec vs)))
     x log out <-> exists id, stops_fields c [] fs x id log out).
Proof.
  intros IH c x log out Hw Ht. rewrite rfail_map, rfail_maperr. split.
  - intros ([y id] & -> & H). simpl. exists id. apply (rx_cast fs IH); auto.
  - intros (id & H). exists (x, id). split; auto. apply (rx_cast fs IH); auto.
Qed.

Lemma rx_records fs : rx_fields fs -> forall c n x log out,
  wf_fields [] fs = true -> typed_fields [] fs = true ->
  (rfail (urep n (ubind (umaperr fst (u_read_fields c (mk_env fs (default_fields fs)) fs))
                       (fun vs => URet (VRec vs)))) x log out <->
   exists xs l1 l2 o2 id, (length xs < n)%nat /\ heard_records c fs xs l1 /\
     stops_fields c [] fs x id l2 o2 /\ log = l1 ++ l2 /\ out = enc_records (c_wire c) fs xs ++ o2).
Proof.
  intros IH c n x log out Hw Ht. destruct reader_log as (_ & HF & _).
  rewrite (rfail_rep _ _ _ n x (fun x l o => rl_record fs (HF fs) c x l o Hw Ht)).
  assert (T : forall xs l1, in_turn (fun x l => exists vs, x = VRec vs /\ carried_fields c fs vs /\
                heard_fields c (mk_env fs vs) fs vs l) xs l1 <-> heard_records c fs xs l1).
  { intros xs l1. unfold heard_records.
    rewrite (turn_iff _ (fun x l => (exists ws, x = VRec ws /\ carried_fields c fs ws) /\
      (exists vs, x = VRec vs /\ heard_fields c (mk_env fs vs) fs vs l))).
    - split; [apply in_turn_split|]. intros [F H]. apply turn_both; auto.
    - intros y l. split.
      + intros (vs & -> & H1 & H2). split; eauto.
      + intros [(ws & -> & H1) (vs & E1 & H2)]. inversion E1; subst. eauto. }
  split.
  - intros (xs & l1 & l2 & o2 & L & H1 & H2 & -> & ->). apply (rx_record fs IH) in H2; auto.
    destruct H2 as (id & H2). exists xs, l1, l2, o2, id. apply T in H1. auto 6.
  - intros (xs & l1 & l2 & o2 & id & L & H1 & H2 & -> & ->). exists xs, l1, l2, o2. repeat split; auto.
    + apply T; auto.
    + apply (rx_record fs IH); eauto.
Qed.

Lemma rx_checked t k c G seen e E x log out : rx_ty t ->
  wf_ty seen t = true -> typed_ty G t = true -> constr_ok t k = true ->
  env_has G e -> covers seen e -> agree seen e E ->
  (rfail (ubind (u_read c e t) (u_rcheck k)) x log out <->
   stops_ty c E t x log out \/
   exists v l1 l2, carried_ty c t v /\ heard_ty c E t v l1 /\ refused k v l2 /\
     x = ValidationFailure /\ log = l1 ++ l2 /\ out = enc_ty (c_wire c) t v).
Proof.
  intros IH Hw Ht Hk Hg Hc Ha. destruct reader_log as (RT & _ & _). destruct carried_has as (CT & _ & _).
  rewrite rfail_bind, (IH c G seen e E) by auto. split; (intros [H|H]; [auto|right]).
  - destruct H as (v & l1 & l2 & o1 & o2 & -> & -> & H1 & H2). apply (RT t c G seen e E) in H1; auto.
    destruct H1 as [[C Hh] ->]. eapply rfail_rcheck in H2; eauto. destruct H2 as (-> & H2 & ->).
    rewrite app_nil_r. exists v, l1, l2. auto 7.
  - destruct H as (v & l1 & l2 & C & Hh & H2 & -> & -> & ->).
    exists v, l1, l2, (enc_ty (c_wire c) t v), []. rewrite app_nil_r. repeat split; auto.
    + apply (RT t c G seen e E); auto.
    + eapply rfail_rcheck; eauto.
Qed.

Lemma rcan_checked t k c G seen e E v log out :
  wf_ty seen t = true -> typed_ty G t = true -> env_has G e -> covers seen e -> agree seen e E ->
  (rcan (ubind (u_read c e t) (u_rcheck k)) v log out <->
   exists l1 l2, carried_ty c t v /\ heard_ty c E t v l1 /\ heard_check k v l2 /\
     log = l1 ++ l2 /\ out = enc_ty (c_wire c) t v).
Proof.
  intros Hw Ht Hg Hc Ha. destruct reader_log as (RT & _ & _). rewrite rcan_bind. split.
  - intros (w & l1 & l2 & o1 & o2 & -> & -> & R1 & R2). apply rcan_rcheck in R2.
    destruct R2 as (<- & Hk & ->). apply (RT t c G seen e E) in R1; auto. destruct R1 as [[C Hh] ->].
    rewrite app_nil_r. exists l1, l2. auto.
  - intros (l1 & l2 & C & Hh & Hk & -> & ->).
    exists v, l1, l2, (enc_ty (c_wire c) t v), []. rewrite app_nil_r. repeat split; auto.
    + apply (RT t c G seen e E); auto.
    + apply rcan_rcheck; auto.
Qed.

Lemma reader_fail : (forall t, rx_ty t) /\ (forall fs, rx_fields fs) /\ (forall al, rx_alts al).
Proof.
  destruct reader_log as (RT & RF & RA). destruct carried_has as (CT & _ & _).
  apply schema_mutind; unfold rx_ty, rx_alts.
  - intros t n c G seen e E x log out Hw Ht Hg Hc Ha. cbn [u_read wf_ty stops_ty] in *.
    apply andb_true_iff in Hw. destruct Hw as [H1 H2]. rewrite rfail_fixed; [tauto|]. destruct t; lia.
  - intros elt l b c G seen e E x log out Hw Ht Hg Hc Ha.
    cbn [u_read wf_ty typed_ty stops_ty] in *.
    apply andb_true_iff in Hw. destruct Hw as [H1 H2].
    assert (HL : len_value e l) by (eapply len_value_typed; eauto).
    rewrite (rfail_sized c e E l seen) by auto.
    split; intros (n & l1 & l2 & A & B & D); exists n, l1, l2; repeat split; auto;
      apply (rfail_var c elt n b x l2 out H1); auto.
  - intros fs IH c G seen e E x log out Hw Ht Hg Hc Ha.
    cbn [u_read wf_ty typed_ty stops_ty] in *. apply (rx_record fs IH); auto.
  - intros n fs IH c G seen e E x log out Hw Ht Hg Hc Ha.
    cbn [u_read wf_ty typed_ty stops_ty] in *. rewrite rfail_map. apply (rx_records fs IH); auto.
  - intros fs IH recsz l b c G seen e E x log out Hw Ht Hg Hc Ha.
    cbn [u_read wf_ty typed_ty stops_ty] in *.
    apply andb_true_iff in Hw. destruct Hw as [Hw H2].
    apply andb_true_iff in Hw. destruct Hw as [H1 H3]. apply Z.ltb_lt in H3.
    apply andb_true_iff in Ht. destruct Ht as [T1 T2].
    assert (HL : len_value e l) by (eapply len_value_typed; eauto).
    rewrite (rfail_sized c e E l seen) by auto.
    split; intros (n & l1 & l2 & A & B & D); exists n, l1, l2; repeat split; auto.
    + destruct (len_allowed _ _ _) eqn:Al.
      * right. split; [apply len_allowed_iff; auto|]. cbn [rfail] in D. destruct D as (l3 & -> & D).
        apply rfail_map, (rx_records fs IH) in D; auto. rewrite Nat2Z.id in D.
        destruct D as (xs & l4 & l5 & o2 & id & L & Hr & Hs & -> & ->). exists xs, l4, l5, o2, id. auto 6.
      * left. simpl in D. destruct D as (<- & -> & ->). repeat split; auto. rewrite <- len_allowed_iff by auto. congruence.
    + destruct D as [(Hn & -> & -> & ->)|(Hi & xs & l4 & l5 & o2 & id & L & Hr & Hs & -> & ->)].
      * rewrite <- len_allowed_iff in Hn by auto. destruct (len_allowed _ _ _); [congruence|]. simpl. auto.
      * apply len_allowed_iff in Hi; auto. rewrite Hi. cbn [rfail]. exists (l4 ++ l5). split; auto.
        apply rfail_map, (rx_records fs IH); auto. rewrite Nat2Z.id. exists xs, l4, l5, o2, id. auto 6.
  - intros b IH p ids c G seen e E x log out Hw Ht Hg Hc Ha.
    cbn [u_read wf_ty typed_ty stops_ty] in *.
    apply andb_true_iff in Hw. destruct Hw as [H1 H2].
    apply andb_true_iff in Ht. destruct Ht as [_ Ht].
    destruct (covers_lookups _ _ _ Hc H1) as [vs Hv].
    rewrite <- (agree_lookups _ _ _ _ Ha H1), Hv. cbn [rfail]. split.
    + intros ([|] & l' & -> & H); [|simpl in H; tauto]. apply rfail_map, (IH c G seen e E) in H; auto.
      exists vs, l'. auto.
    + intros (args & l' & E1 & -> & H). inversion E1; subst. exists true, l'. split; auto.
      apply rfail_map, (IH c G seen e E); auto.
  - intros g al IH c G seen e E x log out Hw Ht Hg Hc Ha.
    cbn [u_read wf_ty typed_ty stops_ty] in *.
    apply andb_true_iff in Hw. destruct Hw as [H1 H2].
    apply andb_true_iff in Ht. destruct Ht as [T1 T2].
    rewrite rfail_bind. split.
    + intros [H|([i|] & l1 & l2 & o1 & o2 & -> & -> & R1 & R2)].
      * elim (rfail_type _ _ _ _ _ H).
      * eapply rcan_type in R1; eauto. destruct R1 as [R1 ->].
        apply rfail_map, (IH c G seen e E) in R2; auto. right. exists i, l1, l2. auto.
      * eapply rcan_type_none in R1; eauto. destruct R1 as [R1 ->]. simpl in R2. destruct R2 as (<- & -> & ->).
        rewrite app_nil_r. auto.
    + intros [(H & -> & ->)|(i & l1 & l2 & Hh & Hs & ->)]; right.
      * exists None, log, [], [], []. rewrite app_nil_r. simpl. repeat split; auto. eapply rcan_type_none; eauto.
      * exists (Some i), l1, l2, [], out. repeat split; auto.
        -- eapply rcan_type; eauto.
        -- apply rfail_map, (IH c G seen e E); auto.
  - intros c G seen e E x id log out _ _ _ _ _ _ _. simpl. tauto.
  - intros id t IHt k fs IHfs c G seen e E x id' log out Hw Ht Hg Hc Hd Ha Hab.
    cbn [u_read_fields wf_fields typed_fields stops_fields] in *.
    apply andb_true_iff in Hw. destruct Hw as [Hw H3].
    apply andb_true_iff in Hw. destruct Hw as [H1 H2]. apply negb_true_iff in H1.
    apply andb_true_iff in Ht. destruct Ht as [Ht T3].
    apply andb_true_iff in Ht. destruct Ht as [T1 T2].
    assert (Hx : exists w, lookup e id = Some w) by (apply Hd; left; auto).
    pose proof (Hab id H1) as HE.
    assert (Q : forall v l o, has_ty t v ->
       (rfail (u_read_fields c (update e id v) fs) (x, id') l o <->
        stops_fields c (E ++ [(id, v)]) fs x id' l o)).
    { intros v l o V. apply (IHfs c ((id, t) :: G) (id :: seen)); auto.
      - apply env_has_update; auto.
      - apply covers_update; auto.
      - apply dom_update. intros i Hi. apply Hd. right; auto.
      - intros i Hi. destruct (String.eqb_spec id i) as [->|Hn].
        + rewrite lookup_update_same by auto. rewrite lookup_app, HE, String.eqb_refl. auto.
        + rewrite lookup_update_other by auto. simpl in Hi. apply orb_true_iff in Hi. destruct Hi as [Hi|Hi];
            [apply String.eqb_eq in Hi; congruence|].
          rewrite Ha by auto. rewrite lookup_app. destruct (lookup E i); auto.
          rewrite (proj2 (String.eqb_neq id i) Hn). auto.
      - intros i Hi. simpl in Hi. apply orb_false_iff in Hi. destruct Hi as [Hi1 Hi2].
        rewrite lookup_app, (Hab i Hi2). destruct (String.eqb_spec id i); auto. subst.
        rewrite String.eqb_refl in Hi1. discriminate. }
    rewrite rfail_bind, rfail_maperr. split.
    + intros [(y & E1 & H)|(v & l1 & l2 & o1 & o2 & -> & -> & R1 & R2)].
      * inversion E1; subst y id'. eapply rx_checked in H; eauto.
        destruct H as [H|(v & l1 & l2 & A1 & A2 & A3 & -> & -> & ->)]; [auto|].
        right. left. exists v, l1, l2. auto 8.
      * apply (proj1 (rcan_maperr _ _ _ _ _)) in R1. eapply rcan_checked in R1; eauto.
        destruct R1 as (l3 & l4 & A1 & A2 & A3 & -> & ->). apply rfail_map in R2. apply Q in R2; [|eauto].
        right. right. exists v, l3, l4, l2, o2. rewrite <- app_assoc. auto 7.
    + intros [[-> H]|[(v & l1 & l2 & A1 & A2 & A3 & -> & -> & -> & ->)|
               (v & l1 & l2 & l3 & o3 & A1 & A2 & A3 & A4 & -> & ->)]].
      * left. exists x. split; auto. eapply rx_checked; eauto.
      * left. exists ValidationFailure. split; auto. eapply rx_checked; eauto. right. exists v, l1, l2. auto 7.
      * right. exists v, (l1 ++ l2), l3, (enc_ty (c_wire c) t v), o3. rewrite <- app_assoc. repeat split; auto.
        -- apply rcan_maperr. eapply rcan_checked; eauto. exists l1, l2. auto.
        -- apply rfail_map. apply Q; eauto.
  - intros c G seen e E i x log out _ _ _ _ _. simpl. tauto.
  - intros t IHt k al IHal c G seen e E i x log out Hw Ht Hg Hc Ha.
    cbn [u_read_alts wf_alts typed_alts stops_alts] in *.
    apply andb_true_iff in Hw. destruct Hw as [H1 H2].
    apply andb_true_iff in Ht. destruct Ht as [Ht T3].
    apply andb_true_iff in Ht. destruct Ht as [Ht T2].
    apply andb_true_iff in Ht. destruct Ht as [_ T1].
    destruct i; [|eapply IHal; eauto]. eapply rx_checked; eauto.
Qed.

(** ** Runs *)

Lemma rfail_run {E A} (H : host) (p : uprog E A) : hands_over H -> forall s x s' ev,
  urun H p s = (Err x, s', ev) -> rfail p x (flat_map said_of ev) (flat_map given ev).
Proof.
  intros Hd. induction p; simpl; intros s x s' ev R; try discriminate.
  - inversion R; subst. auto.
  - destruct (h_read H s n) as [[[bs|]|] s1] eqn:Q; try discriminate.
    + apply Hd in Q. destruct Q as [L B].
      destruct (urun H (k bs) s1) as [[o1 s2] ev1] eqn:Q. injection R as -> <- <-. simpl. right. eauto 9.
    + injection R as -> <- <-. simpl. auto.
  - destruct (h_alloc H s n) as [[[]|] s1]; try discriminate.
    destruct (urun H p s1) as [[o1 s2] ev1] eqn:Q. injection R as -> <- <-. simpl. eauto.
  - destruct (h_write H s bs) as [[[|]|] s1]; try discriminate.
    + destruct (urun H p s1) as [[o1 s2] ev1] eqn:Q. injection R as -> <- <-. simpl. eauto 6.
    + injection R as -> <- <-. simpl. auto.
  - destruct (h_num H s f args) as [[z|] s1]; try discriminate.
    destruct (urun H (k z) s1) as [[o1 s2] ev1] eqn:Q. injection R as -> <- <-. simpl. eauto 6.
  - destruct (h_test H s p args) as [[z|] s1]; try discriminate.
    destruct (urun H (k z) s1) as [[o1 s2] ev1] eqn:Q. injection R as -> <- <-. simpl. eauto 6.
  - destruct (h_check H s p v) as [[z|] s1]; try discriminate.
    destruct (urun H (k z) s1) as [[o1 s2] ev1] eqn:Q. injection R as -> <- <-. simpl. eauto 6.
Qed.

Lemma run_rfail {E A} (p : uprog E A) : forall x log out rest, rfail p x log out ->
  exists ev, urun by_script_in p (out ++ rest, log) = (Err x, (rest, []), ev) /\
             flat_map said_of ev = log /\ flat_map given ev = out.
Proof.
  induction p; simpl; intros x log out rest C; try tauto.
  - destruct C as (-> & -> & ->). exists []. auto.
  - destruct C as [(-> & -> & ->)|(bs & l & o & L & B & -> & -> & C)].
    + simpl. eexists. split; [reflexivity|]. simpl. auto.
    + destruct (H _ _ _ _ rest C) as (ev & R & E1 & E2).
      rewrite <- app_assoc. simpl. rewrite app_length.
      destruct (Z.leb_spec n (Z.of_nat (length bs + length (o ++ rest)))); [|lia].
      rewrite <- L, firstn_app, firstn_all, Nat.sub_diag, firstn_O, app_nil_r, skipn_app, skipn_all, Nat.sub_diag.
      rewrite mod_bytes by auto. simpl. rewrite R. eexists. split; [reflexivity|]. simpl. split; congruence.
  - destruct C as (l & -> & C). destruct (IHp _ _ _ rest C) as (ev & R & E1 & E2). simpl. rewrite R.
    eexists. split; [reflexivity|]. simpl. split; congruence.
  - destruct C as [(-> & -> & ->)|(l & -> & C)].
    + simpl. eexists. split; [reflexivity|]. simpl. auto.
    + destruct (IHp _ _ _ rest C) as (ev & R & E1 & E2). simpl. rewrite R.
      eexists. split; [reflexivity|]. simpl. split; congruence.
  - destruct C as (z & l & -> & C). destruct (H _ _ _ _ rest C) as (ev & R & E1 & E2). simpl. rewrite R.
    eexists. split; [reflexivity|]. simpl. split; congruence.
  - destruct C as (z & l & -> & C). destruct (H _ _ _ _ rest C) as (ev & R & E1 & E2). simpl. rewrite R.
    eexists. split; [reflexivity|]. simpl. split; congruence.
  - destruct C as (z & l & -> & C). destruct (H _ _ _ _ rest C) as (ev & R & E1 & E2). simpl. rewrite R.
    eexists. split; [reflexivity|]. simpl. split; congruence.
Qed.

Lemma read_fails c fs r id : wf fs = true -> typed fs = true ->
  (forall H s s' ev, hands_over H -> urun H (u_struct_cast c fs) s = (Err (r, id), s', ev) ->
     stops_fields c [] fs r id (flat_map said_of ev) (flat_map given ev)) /\
  (forall log out rest, stops_fields c [] fs r id log out ->
     exists ev, urun by_script_in (u_struct_cast c fs) (out ++ rest, log) = (Err (r, id), (rest, []), ev) /\
                flat_map said_of ev = log /\ flat_map given ev = out).
Proof.
  intros Hw Ht. destruct reader_fail as (_ & HF & _).
  pose proof (fun log out => rx_cast fs (HF fs) c r id log out Hw Ht) as Q. split.
  - intros H s s' ev Hd R. apply rfail_run in R; auto. apply Q in R. auto.
  - intros log out rest C. apply run_rfail. apply Q. auto.
Qed.

Lemma read_fails_iff c fs r id log out : wf fs = true -> typed fs = true ->
  ((exists H s s' ev, hands_over H /\ urun H (u_struct_cast c fs) s = (Err (r, id), s', ev) /\
      flat_map said_of ev = log /\ flat_map given ev = out) <->
   stops_fields c [] fs r id log out).
Proof.
  intros Hw Ht. destruct (read_fails c fs r id Hw Ht) as [R1 R2]. split.
  - intros (H & s & s' & ev & Hd & R & <- & <-). eauto.
  - intros C. destruct (R2 log out [] C) as (ev & R & E1 & E2).
    exists by_script_in, (out ++ [], log), ([], []), ev. auto using script_hands_over.
Qed.

(** ** The last thing heard *)

Definition no_short (log : list said) : Prop := forall n, ~ In (SShort n) log.

Lemma no_short_app l1 l2 : no_short l1 -> no_short l2 -> no_short (l1 ++ l2).
Proof. intros H1 H2 n H. apply in_app_or in H. destruct H; [eapply H1|eapply H2]; eauto. Qed.

Lemma no_short_nil : no_short [].
Proof. intros n []. Qed.

Lemma no_short_cons x l : (forall n, x <> SShort n) -> no_short l -> no_short (x :: l).
Proof. intros Hx H n [->|Hi]; [eapply Hx; eauto|eapply H; eauto]. Qed.

Ltac ns := repeat first [assumption | apply no_short_app | apply no_short_cons; [discriminate|] | apply no_short_nil].

Lemma heard_len_ns c E l n log : heard_len c E l n log -> no_short log.
Proof. destruct l; simpl; [intros [-> _]|intros (? & ? & _ & -> & _)]; ns. Qed.

Lemma heard_ladder_ns E brs : forall i log, heard_ladder E brs i log -> no_short log.
Proof.
  induction brs as [|[p ids] brs IH]; intros [|i] log; simpl; try tauto.
  - intros (? & _ & ->). ns.
  - intros (? & l' & _ & -> & H). apply IH in H. ns.
Qed.

Lemma heard_guide_ns E g i log : heard_guide E g i log -> no_short log.
Proof.
  destruct g; simpl; [intros [-> _]|intros (? & ? & _ & -> & _)|apply heard_ladder_ns]; ns.
Qed.

Lemma unguided_ns E g log : unguided E g log -> no_short log.
Proof.
  destruct g; simpl; [intros [-> _]|intros (? & ? & _ & -> & _)|]; ns.
  revert log. induction brs as [|[p ids] brs IH]; simpl; intros log; [intros ->; ns|].
  intros (? & l' & _ & -> & H). apply IH in H. ns.
Qed.

Lemma heard_check_ns k v log : heard_check k v log -> no_short log.
Proof. destruct k; simpl; intros H; first [rewrite H|destruct H as [-> _]]; ns. Qed.

Lemma refused_ns k v log : refused k v log -> no_short log.
Proof. destruct k; simpl; intros H; first [rewrite H|destruct H as [-> _]]; ns. Qed.

Lemma quiet_ns l : no_short (map quiet l).
Proof. induction l as [|[] l IH]; simpl; ns. Qed.

Lemma in_turn_ns (P : val -> list said -> Prop) xs : (forall x l, P x l -> no_short l) -> forall log, in_turn P xs log -> no_short log.
Proof.
  intros H. induction xs as [|x xs IH]; simpl; intros log; [intros ->; ns|].
  intros (l1 & l2 & -> & H1 & H2). apply H in H1. apply IH in H2. ns.
Qed.

Lemma heard_ns :
  (forall t c E v log, heard_ty c E t v log -> no_short log) /\
  (forall fs c E vs log, heard_fields c E fs vs log -> no_short log) /\
  (forall al c E i v log, heard_alts c E al i v log -> no_short log).
Proof.
  apply schema_mutind; simpl.
  - intros t n c E v log ->. ns.
  - intros elt l b c E v log (xs & l1 & _ & H & _ & ->). apply heard_len_ns in H.
    apply no_short_app; [assumption|apply (quiet_ns (var_asks c elt xs))].
  - intros fs IH c E v log (vs & _ & H). eauto.
  - intros n fs IH c E v log (xs & _ & _ & H). eapply in_turn_ns; [|exact H]. intros x l (vs & _ & Hx). eauto.
  - intros fs IH r l b c E v log (xs & l1 & l2 & _ & H1 & _ & -> & H). apply heard_len_ns in H1.
    assert (no_short l2) by (eapply in_turn_ns; [|exact H]; intros x l' (vs & _ & Hx); eauto). ns.
  - intros b IH p ids c E v log (args & _ & [[_ ->]|(v' & l' & _ & -> & H)]); [ns|]. apply IH in H. ns.
  - intros g al IH c E v log (i & v' & l1 & l2 & _ & H1 & H2 & ->). apply heard_guide_ns in H1.
    apply IH in H2. ns.
  - intros c E [|] log; [intros ->; ns|tauto].
  - intros id t IHt k fs IHfs c E [|v vs] log; [tauto|].
    intros (l1 & l2 & l3 & -> & H1 & H2 & H3). apply IHt in H1. apply IHfs in H3. apply heard_check_ns in H2. ns.
  - tauto.
  - intros t IHt k al IHal c E [|i] v log; [|apply IHal].
    intros (l1 & l2 & -> & H1 & H2). apply IHt in H1. apply heard_check_ns in H2. ns.
Qed.

(** A short read is the last thing heard, and is reported as such. *)
Definition ends_well (r : reason) (log : list said) : Prop :=
  (r = BufferExhaustion /\ exists l n, log = l ++ [SShort n] /\ no_short l) \/
  (r <> BufferExhaustion /\ no_short log).

Lemma ends_app r l1 l2 : no_short l1 -> ends_well r l2 -> ends_well r (l1 ++ l2).
Proof.
  intros H [[-> (l & n & -> & Hl)]|[Hr Hl]].
  - left. split; auto. exists (l1 ++ l), n. rewrite app_assoc. split; auto. ns.
  - right. split; auto. ns.
Qed.

Lemma ends_quiet r log : r <> BufferExhaustion -> no_short log -> ends_well r log.
Proof. right. auto. Qed.

Lemma repeat_ns n k : no_short (repeat (SRead n) k).
Proof. induction k; simpl; ns. Qed.

Lemma short_ends c esz n log out : short_of c esz n log out -> ends_well BufferExhaustion log.
Proof.
  unfold short_of. intros H. left. split; auto. destruct (c_cx c).
  - destruct H as (k & _ & -> & _). eexists _, _. split; [reflexivity|]. apply repeat_ns.
  - destruct H as [-> _]. exists [], (Z.of_nat n * Z.of_nat esz). split; auto. ns.
Qed.

Lemma records_ns c gs xs log : heard_records c gs xs log -> no_short log.
Proof.
  intros [_ H]. eapply in_turn_ns; [|exact H]. intros x l (vs & _ & Hx). eapply (proj1 (proj2 heard_ns)); eauto.
Qed.

Lemma stops_end :
  (forall t c E r log out, stops_ty c E t r log out -> ends_well r log) /\
  (forall fs c E r id log out, stops_fields c E fs r id log out -> ends_well r log) /\
  (forall al c E i r log out, stops_alts c E al i r log out -> ends_well r log).
Proof.
  destruct heard_ns as (HT & HF & HA).
  apply schema_mutind; simpl.
  - intros t n c E r log out (-> & -> & _). left. split; auto. exists [], (Z.of_nat n). split; auto. ns.
  - intros elt l b c E r log out (n & l1 & l2 & Hl & -> & [(_ & -> & -> & _)|(_ & -> & l3 & -> & H)]);
      apply heard_len_ns in Hl.
    + apply ends_quiet; [discriminate|ns].
    + apply short_ends in H. apply ends_app; auto. apply (ends_app _ [_]); auto. ns.
  - intros fs IH c E r log out (id & H). eauto.
  - intros n fs IH c E r log out (xs & l1 & l2 & o2 & id & _ & H1 & H2 & -> & _).
    apply ends_app; eauto using records_ns.
  - intros fs IH rs l b c E r log out (n & l1 & l2 & Hl & -> & H). apply heard_len_ns in Hl.
    destruct H as [(_ & -> & -> & _)|(_ & xs & l3 & l4 & o2 & id & _ & H1 & H2 & -> & _)].
    + apply ends_quiet; [discriminate|ns].
    + apply ends_app; auto. apply (ends_app _ (_ :: l3)); eauto. apply records_ns in H1. ns.
  - intros b IH p ids c E r log out (args & l' & _ & -> & H). apply (ends_app _ [_]); eauto. ns.
  - intros g al IH c E r log out [(H & -> & _)|(i & l1 & l2 & H1 & H2 & ->)].
    + apply ends_quiet; [discriminate|]. eapply unguided_ns; eauto.
    + apply ends_app; eauto using heard_guide_ns.
  - tauto.
  - intros id t IHt k fs IHfs c E r id' log out
      [[_ H]|[(v & l1 & l2 & _ & H1 & H2 & _ & -> & -> & _)|(v & l1 & l2 & l3 & o3 & _ & H1 & H2 & H3 & -> & _)]].
    + eauto.
    + apply HT in H1. apply refused_ns in H2. apply ends_quiet; [discriminate|ns].
    + apply HT in H1. apply heard_check_ns in H2. rewrite app_assoc. apply ends_app; eauto. ns.
  - tauto.
  - intros t IHt k al IHal c E [|i] r log out; [|apply IHal].
    intros [H|(v & l1 & l2 & _ & H1 & H2 & -> & -> & _)]; [eauto|].
    apply HT in H1. apply refused_ns in H2. apply ends_quiet; [discriminate|ns].
Qed.

Lemma read_short c fs H s s' ev r id : wf fs = true -> typed fs = true -> hands_over H ->
  urun H (u_struct_cast c fs) s = (Err (r, id), s', ev) ->
  (r = BufferExhaustion <-> exists n, In (SShort n) (flat_map said_of ev)) /\
  (forall l1 n l2, flat_map said_of ev = l1 ++ SShort n :: l2 -> l2 = []).
Proof.
  intros Hw Ht Hd R. apply (read_fails c fs r id Hw Ht) in R; auto.
  apply (proj1 (proj2 stops_end)) in R. destruct R as [[-> (l & n & -> & Hl)]|[Hr Hl]].
  - split.
    + split; auto. intros _. exists n. apply in_or_app. right. simpl. auto.
    + intros l1 m l2 E. destruct l2 as [|y l2]; auto. exfalso.
      destruct (@exists_last _ (y :: l2)) as (l3 & z & E3); [discriminate|]. rewrite E3 in E.
      change (SShort m :: l3 ++ [z]) with ((SShort m :: l3) ++ [z]) in E. rewrite app_assoc in E.
      apply app_inj_tail in E. destruct E as [-> _]. apply (Hl m). apply in_or_app. right. simpl. auto.
  - split.
    + split; [congruence|]. intros (n & Hi). elim (Hl n Hi).
    + intros l1 m l2 E. elim (Hl m). rewrite E. apply in_or_app. right. simpl. auto.
Qed.
