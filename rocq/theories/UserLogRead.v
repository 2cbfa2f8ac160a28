(** A read hears exactly what UserSpec.v says, and is given exactly the bytes of its value. *)
From Coq Require Import ZifyBool ZifyNat.
From Verif Require Import UserLogSpec Typing BytesFacts ProgFacts ReadFacts ReadMore Safety CallFacts UserRead.

(** The program ends in [a] if it hears [log] and is given [out]. *)
Fixpoint rcan {E A} (p : uprog E A) (a : A) (log : list said) (out : list Z) : Prop :=
  match p with
  | URet b => b = a /\ log = [] /\ out = []
  | UErr _ | UUB | UStuck => False
  | UWrite bs _ k => exists log', log = SWrite bs :: log' /\ rcan k a log' out
  | URead n _ k =>
      exists bs log' out', length bs = Z.to_nat n /\ Forall byte_ok bs /\ log = SRead n :: log' /\
                      out = bs ++ out' /\ rcan (k bs) a log' out'
  | UAlloc n k => exists log', log = SMem n :: log' /\ rcan k a log' out
  | UNum f args k => exists z log', log = SNum f args z :: log' /\ rcan (k z) a log' out
  | UTest p args k => exists b log', log = STest p args b :: log' /\ rcan (k b) a log' out
  | UCheck p v k => exists b log', log = SCheck p v b :: log' /\ rcan (k b) a log' out
  end.

Lemma rcan_bind {E A B} (p : uprog E A) (f : A -> uprog E B) b : forall log out,
  rcan (ubind p f) b log out <->
  exists a l1 l2 o1 o2, log = l1 ++ l2 /\ out = o1 ++ o2 /\ rcan p a l1 o1 /\ rcan (f a) b l2 o2.
Proof.
  induction p; intros log out; simpl.
  - split.
    + intros H. exists a, [], log, [], out. auto 6.
    + intros (a' & l1 & l2 & o1 & o2 & -> & -> & (-> & -> & ->) & H). exact H.
  - split; [tauto|intros (? & ? & ? & ? & ? & _ & _ & [] & _)].
  - split; [tauto|intros (? & ? & ? & ? & ? & _ & _ & [] & _)].
  - split; [tauto|intros (? & ? & ? & ? & ? & _ & _ & [] & _)].
  - split.
    + intros (bs & l' & o' & L & B' & -> & -> & Hu). apply H in Hu.
      destruct Hu as (a & l1 & l2 & o1 & o2 & -> & -> & H1 & H2).
      exists a, (SRead n :: l1), l2, (bs ++ o1), o2. rewrite <- app_assoc. repeat split; eauto 9.
    + intros (a & l1 & l2 & o1 & o2 & -> & -> & (bs & l' & o' & L & B' & -> & -> & H1) & H2).
      exists bs, (l' ++ l2), (o' ++ o2). rewrite <- app_assoc. repeat split; auto.
      apply H. exists a, l', l2, o', o2. auto.
  - split.
    + intros (l' & -> & H). apply IHp in H. destruct H as (a & l1 & l2 & o1 & o2 & -> & -> & H1 & H2).
      exists a, (SMem n :: l1), l2, o1, o2. repeat split; eauto.
    + intros (a & l1 & l2 & o1 & o2 & -> & -> & (l' & -> & H1) & H2). exists (l' ++ l2). split; auto.
      apply IHp. exists a, l', l2, o1, o2. auto.
  - split.
    + intros (l' & -> & H). apply IHp in H. destruct H as (a & l1 & l2 & o1 & o2 & -> & -> & H1 & H2).
      exists a, (SWrite bs :: l1), l2, o1, o2. repeat split; eauto.
    + intros (a & l1 & l2 & o1 & o2 & -> & -> & (l' & -> & H1) & H2). exists (l' ++ l2). split; auto.
      apply IHp. exists a, l', l2, o1, o2. auto.
  - split.
    + intros (z & l' & -> & Hu). apply H in Hu. destruct Hu as (a & l1 & l2 & o1 & o2 & -> & -> & H1 & H2).
      exists a, (SNum f0 args z :: l1), l2, o1, o2. repeat split; eauto.
    + intros (a & l1 & l2 & o1 & o2 & -> & -> & (z & l' & -> & H1) & H2). exists z, (l' ++ l2). split; auto.
      apply H. exists a, l', l2, o1, o2. auto.
  - split.
    + intros (z & l' & -> & Hu). apply H in Hu. destruct Hu as (a & l1 & l2 & o1 & o2 & -> & -> & H1 & H2).
      exists a, (STest p args z :: l1), l2, o1, o2. repeat split; eauto.
    + intros (a & l1 & l2 & o1 & o2 & -> & -> & (z & l' & -> & H1) & H2). exists z, (l' ++ l2). split; auto.
      apply H. exists a, l', l2, o1, o2. auto.
  - split.
    + intros (z & l' & -> & Hu). apply H in Hu. destruct Hu as (a & l1 & l2 & o1 & o2 & -> & -> & H1 & H2).
      exists a, (SCheck p v z :: l1), l2, o1, o2. repeat split; eauto.
    + intros (a & l1 & l2 & o1 & o2 & -> & -> & (z & l' & -> & H1) & H2). exists z, (l' ++ l2). split; auto.
      apply H. exists a, l', l2, o1, o2. auto.
Qed.

(** A first part that is given nothing. *)
Lemma rcan_ask {E A B} (p : uprog E A) (f : A -> uprog E B) b (P : A -> list said -> Prop) log out :
  (forall a l o, rcan p a l o <-> P a l /\ o = []) ->
  (rcan (ubind p f) b log out <->
   exists a l1 l2, log = l1 ++ l2 /\ P a l1 /\ rcan (f a) b l2 out).
Proof.
  intros H. rewrite rcan_bind. split.
  - intros (a & l1 & l2 & o1 & o2 & -> & -> & H1 & H2). apply H in H1. destruct H1 as [H1 ->].
    exists a, l1, l2. auto.
  - intros (a & l1 & l2 & -> & H1 & H2). exists a, l1, l2, [], out. repeat split; auto. apply H; auto.
Qed.

Lemma rcan_map {E A B} (p : uprog E A) (f : A -> B) b log out :
  rcan (ubind p (fun a => URet (f a))) b log out <-> exists a, b = f a /\ rcan p a log out.
Proof.
  rewrite rcan_bind. split.
  - intros (a & l1 & l2 & o1 & o2 & -> & -> & H1 & <- & -> & ->). rewrite !app_nil_r. eauto.
  - intros (a & -> & H). exists a, log, [], out, []. rewrite !app_nil_r. simpl. auto 6.
Qed.

Lemma rcan_maperr {E E' A} (g : E -> E') (p : uprog E A) a : forall log out,
  rcan (umaperr g p) a log out <-> rcan p a log out.
Proof.
  induction p; intros log out; simpl; try tauto.
  - split; intros (bs & l' & o' & L & B & -> & -> & H1); exists bs, l', o'; repeat split; auto; apply H; auto.
  - split; intros (l' & -> & H); exists l'; (split; [auto|]); apply IHp; auto.
  - split; intros (l' & -> & H); exists l'; (split; [auto|]); apply IHp; auto.
  - split; intros (z & l' & -> & H1); exists z, l'; (split; [auto|]); apply H; auto.
  - split; intros (z & l' & -> & H1); exists z, l'; (split; [auto|]); apply H; auto.
  - split; intros (z & l' & -> & H1); exists z, l'; (split; [auto|]); apply H; auto.
Qed.

Lemma rcan_rep {E} (p : uprog E val) (P : val -> list said -> Prop) (enc : val -> list Z) n :
  (forall x l o, rcan p x l o <-> P x l /\ o = enc x) ->
  forall xs log out, rcan (urep n p) xs log out <->
    length xs = n /\ in_turn P xs log /\ out = flat_map enc xs.
Proof.
  intros H. induction n; intros xs log out; simpl.
  - split; [intros (<- & -> & ->); simpl; auto|]. intros (L & T & ->). destruct xs; [|discriminate].
    simpl in T. auto.
  - rewrite rcan_bind. split.
    + intros (a & l1 & l2 & o1 & o2 & -> & -> & H1 & H2). apply rcan_map in H2. destruct H2 as (ys & -> & H2).
      apply IHn in H2. destruct H2 as (<- & H2 & ->). apply H in H1. destruct H1 as [H1 ->]. simpl.
      repeat split; auto. exists l1, l2. auto.
    + intros (L & T & ->). destruct xs as [|x xs]; [discriminate|]. injection L as L.
      destruct T as (l1 & l2 & -> & H1 & H2). exists x, l1, l2, (enc x), (flat_map enc xs).
      repeat split; auto; [apply H; auto|].
      apply rcan_map. exists xs. split; auto. apply IHn; auto.
Qed.

Lemma rcan_fixed c t n v log out : ct_wf t = true -> (n <= csize t)%nat ->
  (rcan (of_r (read_fixed c t n)) v log out <->
   (ct_ok t v /\ representable (c_wire c) t n v) /\ log = [SRead (Z.of_nat n)] /\
   out = firstn n (enc_ct (c_wire c) t v)).
Proof.
  intros Hw Hn. unfold read_fixed. destruct (Nat.ltb_spec (csize t) n); [lia|]. simpl. split.
  - intros (bs & l' & o' & L & B & -> & -> & H1). rewrite Nat2Z.id in L.
    destruct (load c t (overlay (csize t) bs)) as [v'|] eqn:E; simpl in H1; [|tauto].
    destruct H1 as (-> & -> & ->). apply (load_overlay_iff c t n) in E; auto. rewrite app_nil_r. tauto.
  - intros ([H1 H2] & -> & ->). exists (firstn n (enc_ct (c_wire c) t v)), [], [].
    assert (L : length (firstn n (enc_ct (c_wire c) t v)) = n).
    { rewrite firstn_length, enc_ct_length by auto. lia. }
    assert (B : Forall byte_ok (firstn n (enc_ct (c_wire c) t v))).
    { apply Forall_firstn, enc_ct_bytes; auto. }
    rewrite Nat2Z.id, app_nil_r. repeat split; auto; try lia.
    assert (load c t (overlay (csize t) (firstn n (enc_ct (c_wire c) t v))) = Some v) as ->.
    { apply (load_overlay_iff c t n); auto. }
    simpl. auto.
Qed.

Lemma of_r_bind {E A B} (p : rprog E A) (f : A -> rprog E B) b : forall log out,
  rcan (of_r (rbind p f)) b log out <-> rcan (ubind (of_r p) (fun a => of_r (f a))) b log out.
Proof.
  induction p; intros log out; simpl; try tauto.
  - split; intros (bs & l' & o' & L & B' & -> & -> & H1); exists bs, l', o'; repeat split; auto; apply H; auto.
  - split; intros (l' & -> & H); exists l'; (split; [auto|]); apply IHp; auto.
Qed.

Lemma rcan_pieces {E} esz (e : E) n : 0 <= esz -> forall chs log out,
  rcan (of_r (rrep n (RRead esz e (fun bs => RRet bs)))) chs log out <->
  length chs = n /\ Forall (fun ch => length ch = Z.to_nat esz /\ Forall byte_ok ch) chs /\
  log = repeat (SRead esz) n /\ out = concat chs.
Proof.
  intros He. induction n; intros chs log out.
  - simpl. split; [intros (<- & -> & ->); simpl; auto|]. intros (L & _ & -> & ->). destruct chs; [auto|discriminate].
  - cbn [rrep repeat]. rewrite of_r_bind. simpl. split.
    + intros (bs & l' & o' & L & B & -> & -> & H). apply of_r_bind in H. simpl in H. apply rcan_map in H.
      destruct H as (ys & -> & H). apply IHn in H. destruct H as (<- & F & -> & ->). simpl. auto 7.
    + intros (L & F & -> & ->). destruct chs as [|ch chs]; [discriminate|]. inversion F as [|? ? [L1 B1] F']; subst.
      exists ch, (repeat (SRead esz) n), (concat chs). repeat split; auto. apply of_r_bind. simpl.
      apply rcan_map. exists chs. split; auto. apply IHn. simpl in L. auto.
Qed.

Lemma rcan_var c elt len b v log out : ct_wf elt = true -> 0 <= len ->
  (rcan (of_r (read_var c elt len b)) v log out <->
   exists xs, v = VSeq xs /\ Forall (ct_ok elt) xs /\ Z.of_nat (length xs) = len /\
     within c b (Z.of_nat (csize elt)) (length xs) /\ log = map quiet (var_asks c elt xs) /\
     out = flat_map (enc_ct (c_wire c) elt) xs).
Proof.
  intros Hw Hl. pose proof (csize_pos _ Hw) as Hp. unfold read_var.
  set (esz := Z.of_nat (csize elt)) in *.
  assert (Hesz : Z.to_nat esz = csize elt) by apply Nat2Z.id.
  assert (He : 0 < esz) by lia.
  destruct (len_allowed (ceiling c b) esz len) eqn:A.
  2: { simpl. split; [tauto|]. intros (xs & -> & _ & <- & W & _).
       apply len_allowed_iff in W; auto. congruence. }
  pose proof (allowed_product _ _ _ _ Hl (Z.lt_le_incl _ _ He) A) as Hts.
  assert (Q : forall mem l o, rcan (of_r (read_raw c esz len)) mem l o <->
     length mem = (Z.to_nat len * csize elt)%nat /\ Forall byte_ok mem /\
     l = (if c_cx c then repeat (SRead esz) (Z.to_nat len) else [SRead (len * esz)]) /\ o = mem).
  { intros mem l o. unfold read_raw. destruct (c_cx c).
    - rewrite of_r_bind. cbn [of_r]. rewrite rcan_map. split.
      + intros (chs & -> & H). apply rcan_pieces in H; [|lia]. destruct H as (L & F & -> & ->).
        rewrite Hesz in F. rewrite <- L. clear -F. repeat split; auto.
        * induction F as [|ch chs [L1 B1] F IH]; simpl; auto. rewrite app_length, L1, IH. lia.
        * induction F as [|ch chs [L1 B1] F IH]; simpl; auto. apply Forall_app; auto.
      + intros (L & B & -> & ->). exists (chunks (csize elt) (Z.to_nat len) mem).
        rewrite concat_chunks by auto.
        split; [auto|]. apply rcan_pieces; [lia|].
        split; [apply chunks_length|]. rewrite concat_chunks by auto. repeat split; auto.
        rewrite Hesz. apply chunks_Forall; auto.
    - simpl. rewrite Hts. assert (Z.to_nat (len * esz) = (Z.to_nat len * csize elt)%nat) as -> by nia.
      split.
      + intros (bs & l' & o' & L & B & -> & -> & <- & -> & ->). rewrite app_nil_r. auto.
      + intros (L & B & -> & ->). exists mem, [], []. rewrite app_nil_r. repeat split; auto. }
  cbn [of_r rcan]. split.
  - intros (l' & -> & H). apply of_r_bind, rcan_bind in H.
    destruct H as (mem & l1 & l2 & o1 & o2 & -> & -> & H1 & H2).
    apply Q in H1. destruct H1 as (L & B & -> & ->).
    destruct (sequence _) as [vs|] eqn:E; simpl in H2; [|tauto]. destruct H2 as (<- & -> & ->).
    apply elems_iff in E; auto. destruct E as (E1 & E2 & E3). exists vs.
    assert (En : Z.of_nat (length vs) = len) by lia.
    rewrite !app_nil_r. repeat split; auto.
    + apply len_allowed_iff; auto. rewrite En. auto.
    + unfold var_asks. fold esz. rewrite En. cbn [map quiet]. f_equal. rewrite <- E1.
      destruct (c_cx c); auto. clear. induction vs; simpl; congruence.
  - intros (xs & -> & F & En & W & -> & ->). exists (map quiet (if c_cx c then map (fun _ => AskRead esz) xs
                                                      else [AskRead (len * esz)])).
    split; [unfold var_asks; fold esz; rewrite En; auto|].
    apply of_r_bind, rcan_bind.
    exists (flat_map (enc_ct (c_wire c) elt) xs).
    exists (map quiet (if c_cx c then map (fun _ => AskRead esz) xs else [AskRead (len * esz)])), [].
    exists (flat_map (enc_ct (c_wire c) elt) xs), [].
    assert (L : length (flat_map (enc_ct (c_wire c) elt) xs) = (Z.to_nat len * csize elt)%nat).
    { assert (Z.to_nat len = length xs) as -> by lia. clear -F. induction F; simpl; auto.
      rewrite app_length, enc_ct_length, IHF; auto. }
    assert (B : Forall byte_ok (flat_map (enc_ct (c_wire c) elt) xs)).
    { clear -F. induction F; simpl; auto. apply Forall_app. split; auto. apply enc_ct_bytes; auto. }
    rewrite !app_nil_r. split; [auto|]. split; [auto|]. split.
    + apply Q. repeat split; auto. destruct (c_cx c); auto.
      assert (Z.to_nat len = length xs) as -> by lia. clear. induction xs; simpl; congruence.
    + assert (sequence (map (load c elt) (chunks (csize elt) (Z.to_nat len) (flat_map (enc_ct (c_wire c) elt) xs)))
              = Some xs) as ->.
      { apply elems_iff; auto. repeat split; auto. lia. }
      simpl. auto.
Qed.

(** ** Steps with user code *)

Lemma rcan_len c e E l seen n log out : len_value e l -> len_wf seen l = true -> agree seen e E ->
  (rcan (u_len c e l) (Z.of_nat n) log out <-> heard_len c E l n log /\ out = []).
Proof.
  intros Hv Hw Ha. destruct l; simpl in *.
  - destruct Hv as [z Hz]. rewrite <- (Ha id Hw), Hz. simpl. split.
    + intros (H & -> & ->). repeat split; auto. exists z. split; auto.
    + intros [[-> (z' & E1 & H)] ->]. inversion E1; subst. repeat split; auto.
  - destruct Hv as [vs Hv]. rewrite <- (agree_lookups _ _ _ _ Ha Hw), Hv. simpl. split.
    + intros (z & l' & -> & H & -> & ->). split; auto. exists vs, z. repeat split; auto.
    + intros [(args & z & E1 & -> & H) ->]. inversion E1; subst. exists z, []. repeat split; auto.
Qed.

Lemma u_len_nonneg c e l n log out : rcan (u_len c e l) n log out -> 0 <= n.
Proof.
  destruct l; simpl.
  - destruct (lookup e id) as [[z| | | | | |]|]; simpl; try tauto. intros [<- _]. apply (proj1 (to_size_range c z)).
  - destruct (lookups e ids); simpl; try tauto. intros (z & l' & _ & <- & _). apply (proj1 (to_size_range c z)).
Qed.

Lemma rcan_sized {B} c e E l seen (f : Z -> uprog reason B) b log out :
  len_value e l -> len_wf seen l = true -> agree seen e E ->
  (rcan (ubind (u_len c e l) f) b log out <->
   exists n l1 l2, log = l1 ++ l2 /\ heard_len c E l n l1 /\ rcan (f (Z.of_nat n)) b l2 out).
Proof.
  intros Hv Hw Ha. rewrite rcan_bind. split.
  - intros (z & l1 & l2 & o1 & o2 & -> & -> & H1 & H2). pose proof (u_len_nonneg _ _ _ _ _ _ H1) as Hz.
    rewrite <- (Z2Nat.id z Hz) in *. eapply rcan_len in H1; eauto. destruct H1 as [H1 ->].
    exists (Z.to_nat z), l1, l2. auto.
  - intros (n & l1 & l2 & -> & H1 & H2). exists (Z.of_nat n), l1, l2, [], out. repeat split; auto.
    eapply rcan_len; eauto.
Qed.

Lemma rcan_ladder e E seen brs : covers seen e -> agree seen e E ->
  forallb (fun b => all_in (snd b) seen) brs = true ->
  forall i log out, rcan (u_ladder e brs) (Some i) log out <-> heard_ladder E brs i log /\ out = [].
Proof.
  intros Hc Ha. induction brs as [|[p ids] brs IH]; simpl; intros H i log out.
  - split; [intros [X _]; discriminate|]. tauto.
  - apply andb_true_iff in H. destruct H as [H1 H2].
    rewrite <- (agree_lookups _ _ _ _ Ha H1).
    destruct (covers_lookups _ _ _ Hc H1) as [vs Hv]. rewrite Hv. simpl. split.
    + intros ([|] & l' & -> & H); simpl in H.
      * destruct H as (E1 & -> & ->). inversion E1; subst. eauto.
      * apply rcan_map in H. destruct H as (r & E1 & H).
        destruct r as [j|]; simpl in E1; [|discriminate]. inversion E1; subst.
        apply (IH H2) in H. destruct H. split; auto. exists vs, l'. auto.
    + destruct i.
      * intros [(args & E1 & ->) ->]. inversion E1; subst. exists true, []. simpl. auto.
      * intros [(args & l' & E1 & -> & H) ->]. inversion E1; subst. exists false, l'. split; auto.
        apply rcan_map. exists (Some i). split; auto. apply (IH H2); auto.
Qed.

Lemma rcan_type G seen e E g n i log out : env_has G e -> covers seen e -> agree seen e E ->
  guide_wf seen g = true -> guide_typed G g n = true ->
  (rcan (u_type e g) (Some i) log out <-> heard_guide E g i log /\ out = []).
Proof.
  intros Hg Hc Ha Hw Ht. destruct g; simpl in *.
  - destruct (tlookup G id) as [t|] eqn:Et; [|discriminate].
    apply Hg in Et. destruct Et as (v & Hl & Hv).
    destruct t as [[s'| | |]| | | | | |]; try discriminate. simpl in Hv. destruct v; try tauto.
    rewrite <- (Ha id Hw), Hl. simpl. rewrite eval_switch_iff. split.
    + intros (H & -> & ->). repeat split; eauto.
    + intros [[-> (z' & E1 & H)] ->]. inversion E1; subst. auto.
  - rewrite <- (agree_lookups _ _ _ _ Ha Hw).
    destruct (covers_lookups _ _ _ Hc Hw) as [vs Hv]. rewrite Hv. simpl. split.
    + intros (z & l' & -> & H & -> & ->). split; auto.
      exists vs, z. repeat split; auto; apply eval_switch_iff; auto.
    + intros [(args & z & E1 & -> & H) ->]. inversion E1; subst. exists z, []. repeat split; auto.
      apply eval_switch_iff; auto.
  - eapply rcan_ladder; eauto.
Qed.

Lemma rcan_rcheck k v w log out : rcan (u_rcheck k v) w log out <-> w = v /\ heard_check k v log /\ out = [].
Proof.
  pose proof (check_holds k v) as Hc. unfold u_rcheck. rewrite rcan_bind.
  assert (Q : forall k', (forall f, k' <> CFun f) -> (check k' v = CTrue <-> holds k' v) ->
    ((exists a l1 l2 o1 o2, log = l1 ++ l2 /\ out = o1 ++ o2 /\ rcan (u_holds k' v) a l1 o1 /\
        rcan (if a then URet v else UErr ValidationFailure) w l2 o2) <->
     w = v /\ (log = [] /\ holds k' v) /\ out = [])).
  { intros k' Hf Hh. assert (u_holds k' v = match check k' v with
      | CTrue => URet true | CFalse => URet false | CUndef => UUB | CStuck => UStuck end) as ->.
    { destruct k'; auto. elim (Hf f eq_refl). }
    split.
    - intros (a & l1 & l2 & o1 & o2 & -> & -> & H1 & H2). rewrite <- Hh.
      destruct (check k' v); simpl in H1; try tauto; destruct H1 as (<- & -> & ->); simpl in H2; try tauto.
      destruct H2 as (<- & -> & ->). auto.
    - intros (-> & [-> H] & ->). apply Hh in H. rewrite H. exists true, [], [], [], []. simpl. auto 7. }
  destruct k; try (apply Q; [discriminate|auto]; fail).
  simpl. split.
  - intros (a & l1 & l2 & o1 & o2 & -> & -> & (b & l' & -> & <- & -> & ->) & H2). destruct b; simpl in H2; [|tauto].
    destruct H2 as (<- & -> & ->). auto.
  - intros (-> & -> & ->). exists true, [SCheck f v true], [], [], []. simpl. repeat split; auto.
    exists true, []. auto.
Qed.

(** ** Everything *)

Definition rl_ty (t : fty) : Prop := forall c G seen e E v log out,
  wf_ty seen t = true -> typed_ty G t = true -> env_has G e -> covers seen e -> agree seen e E ->
  (rcan (u_read c e t) v log out <->
   (carried_ty c t v /\ heard_ty c E t v log) /\ out = enc_ty (c_wire c) t v).
Definition rl_fields (fs : fields) : Prop := forall c G seen e E vs log out,
  wf_fields seen fs = true -> typed_fields G fs = true -> env_has G e -> covers seen e -> dom fs e ->
  agree seen e E -> binds E fs vs ->
  (rcan (u_read_fields c e fs) vs log out <->
   (carried_fields c fs vs /\ heard_fields c E fs vs log) /\ out = enc_fields (c_wire c) fs vs).
Definition rl_alts (al : alts) : Prop := forall c G seen e E i v log out,
  wf_alts seen al = true -> typed_alts G al = true -> env_has G e -> covers seen e -> agree seen e E ->
  (rcan (u_read_alts c e al i) v log out <->
   (carried_alts c al i v /\ heard_alts c E al i v log) /\ out = enc_alts (c_wire c) al i v).

Lemma carried_has : 
  (forall t, forall c v, carried_ty c t v -> forall E log, heard_ty c E t v log -> has_ty t v) /\
  (forall fs, forall c vs, carried_fields c fs vs -> forall E log, heard_fields c E fs vs log -> has_fields fs vs) /\
  (forall al, forall c i v, carried_alts c al i v -> forall E log, heard_alts c E al i v log -> has_alt al i v).
Proof.
  assert (R : forall gs c xs,
    (forall vs, carried_fields c gs vs -> forall E log, heard_fields c E gs vs log -> has_fields gs vs) ->
    Forall (fun x => exists ws, x = VRec ws /\ carried_fields c gs ws) xs -> forall log,
    in_turn (fun x l => exists vs, x = VRec vs /\ heard_fields c (mk_env gs vs) gs vs l) xs log ->
    Forall (fun x => match x with VRec ws => has_fields gs ws | _ => False end) xs).
  { intros gs c xs IH F. induction F as [|x xs (ws & -> & Hx) F IHF]; simpl; intros log H; auto.
    destruct H as (l1 & l2 & -> & (vs & E1 & H1) & H2). inversion E1; subst. eauto. }
  apply schema_mutind; simpl.
  - tauto.
  - intros elt l b c v (xs & -> & F) E log _. auto.
  - intros gs IH c v (ws & -> & H) E log (vs & E1 & H1). inversion E1; subst. eauto.
  - intros n gs IH c v (xs & -> & H) E log (vs & E1 & L & H1). inversion E1; subst. split; eauto.
  - intros gs IH r l b c v (xs & -> & H) E log (vs & l1 & l2 & E1 & _ & _ & _ & H1). inversion E1; subst. eauto.
  - intros b IH p ids c v H E log (args & _ & [[-> _]|(v' & l' & -> & _ & H1)]); auto.
    destruct H as [|(w & E1 & H)]; [discriminate|]. inversion E1; subst. eauto.
  - intros g al IH c v (i & v' & -> & H) E log (j & w & l1 & l2 & E1 & _ & H1 & _). inversion E1; subst. eauto.
  - intros c [|] H E log; simpl; auto.
  - intros id t IHt k fs IHfs cf [|v vs]; [tauto|]. intros [H1 H2] E log (l1 & l2 & l3 & _ & H3 & _ & H4). eauto.
  - tauto.
  - intros t IHt k al IHal c [|i] v H E log; [|eauto]. intros (l1 & l2 & _ & H1 & _). eauto.
Qed.

Lemma carried_len fs : forall c vs, carried_fields c fs vs -> length vs = f_len fs.
Proof. induction fs; intros cf [|v vs]; simpl; try tauto. intros [_ H]. f_equal. eauto. Qed.

Lemma u_read_len c fs : forall e vs log out, rcan (u_read_fields c e fs) vs log out -> length vs = f_len fs.
Proof.
  induction fs; intros e vs log out H; simpl in *.
  - destruct H as [<- _]. auto.
  - apply rcan_bind in H. destruct H as (v & l1 & l2 & o1 & o2 & -> & -> & _ & H).
    apply rcan_map in H. destruct H as (ws & -> & H). simpl. f_equal. eauto.
Qed.

Lemma rl_cast fs : rl_fields fs -> forall c vs log out,
  wf_fields [] fs = true -> typed_fields [] fs = true ->
  (rcan (u_read_fields c (mk_env fs (default_fields fs)) fs) vs log out <->
   (carried_fields c fs vs /\ heard_fields c (mk_env fs vs) fs vs log) /\ out = enc_fields (c_wire c) fs vs).
Proof.
  intros IH c vs log out Hw Ht. destruct (wf_fields_ids _ _ Hw) as [Hnd _].
  assert (Q : length vs = f_len fs ->
    (rcan (u_read_fields c (mk_env fs (default_fields fs)) fs) vs log out <->
   (carried_fields c fs vs /\ heard_fields c (mk_env fs vs) fs vs log) /\ out = enc_fields (c_wire c) fs vs)).
  { intros L. apply (IH c [] []); auto.
    - intros ? ? Hl; discriminate.
    - intros ? [].
    - apply dom_mk_env, default_fields_length.
    - intros id; discriminate.
    - apply binds_mk_env; auto. }
  split; intros H.
  - apply Q; auto. eapply u_read_len; eauto.
  - apply Q; auto. destruct H as [[H _] _]. eapply carried_len; eauto.
Qed.

Definition rec_enc (o : endian) (gs : fields) (x : val) : list Z :=
  match x with VRec ws => enc_fields o gs ws | _ => [] end.

Lemma rl_record fs : rl_fields fs -> forall c x log out,
  wf_fields [] fs = true -> typed_fields [] fs = true ->
  (rcan (ubind (umaperr fst (u_read_fields c (mk_env fs (default_fields fs)) fs)) (fun vs => URet (VRec vs)))
     x log out <->
   (exists vs, x = VRec vs /\ carried_fields c fs vs /\ heard_fields c (mk_env fs vs) fs vs log) /\
   out = rec_enc (c_wire c) fs x).
Proof.
  intros IH c x log out Hw Ht. rewrite rcan_map. split.
  - intros (vs & -> & H). apply (proj1 (rcan_maperr _ _ _ _ _)) in H. apply (rl_cast fs IH) in H; auto.
    destruct H as [[H1 H2] ->]. split; auto. exists vs. auto.
  - intros [(vs & -> & H1 & H2) ->]. exists vs. split; auto. apply rcan_maperr. apply (rl_cast fs IH); auto.
Qed.

Lemma turn_both (P : val -> Prop) (Q : val -> list said -> Prop) xs : forall log,
  Forall P xs -> in_turn Q xs log -> in_turn (fun x l => P x /\ Q x l) xs log.
Proof.
  induction xs as [|x xs IH]; simpl; intros log F H; auto. inversion F as [|? ? F1 F2]; subst.
  destruct H as (l1 & l2 & -> & H1 & H2). exists l1, l2. auto.
Qed.

Lemma turn_iff (P Q : val -> list said -> Prop) xs : (forall x l, P x l <-> Q x l) -> forall log,
  in_turn P xs log <-> in_turn Q xs log.
Proof.
  intros H. induction xs as [|x xs IH]; simpl; intros log; [tauto|].
  split; intros (l1 & l2 & -> & H1 & H2); exists l1, l2; (split; [auto|split; [apply H; auto|apply IH; auto]]).
Qed.

Lemma rl_records fs : rl_fields fs -> forall c n xs log out,
  wf_fields [] fs = true -> typed_fields [] fs = true ->
  (rcan (urep n (ubind (umaperr fst (u_read_fields c (mk_env fs (default_fields fs)) fs))
                       (fun vs => URet (VRec vs)))) xs log out <->
   length xs = n /\
   (Forall (fun x => exists ws, x = VRec ws /\ carried_fields c fs ws) xs /\
    in_turn (fun x l => exists vs, x = VRec vs /\ heard_fields c (mk_env fs vs) fs vs l) xs log) /\
   out = flat_map (rec_enc (c_wire c) fs) xs).
Proof.
  intros IH c n xs log out Hw Ht.
  rewrite (rcan_rep _ _ _ n (fun x l o => rl_record fs IH c x l o Hw Ht)).
  rewrite (turn_iff _ (fun x l => (exists ws, x = VRec ws /\ carried_fields c fs ws) /\
      (exists vs, x = VRec vs /\ heard_fields c (mk_env fs vs) fs vs l))).
  - split.
    + intros (L & H & ->). apply in_turn_split in H. auto.
    + intros (L & [F H] & ->). repeat split; auto. apply turn_both; auto.
  - intros x l. split.
    + intros (vs & -> & H1 & H2). split; eauto.
    + intros [(ws & -> & H1) (vs & E1 & H2)]. inversion E1; subst. eauto.
Qed.

Lemma reader_log : (forall t, rl_ty t) /\ (forall fs, rl_fields fs) /\ (forall al, rl_alts al).
Proof.
  destruct carried_has as (CT & _ & _).
  apply schema_mutind; unfold rl_ty, rl_alts.
  - intros t n c G seen e E v log out Hw Ht Hg Hc Ha. cbn [u_read wf_ty carried_ty heard_ty enc_ty] in *.
    apply andb_true_iff in Hw. destruct Hw as [H1 H2]. rewrite rcan_fixed; auto; [tauto|]. destruct t; lia.
  - intros elt l b c G seen e E v log out Hw Ht Hg Hc Ha.
    cbn [u_read wf_ty typed_ty carried_ty heard_ty] in *.
    apply andb_true_iff in Hw. destruct Hw as [H1 H2].
    assert (HL : len_value e l) by (eapply len_value_typed; eauto).
    rewrite (rcan_sized c e E l seen) by auto. split.
    + intros (n & l1 & l2 & -> & Hl & H). apply rcan_var in H; auto; [|lia].
      destruct H as (xs & -> & F & L & W & -> & ->). apply Nat2Z.inj in L. subst n. split; auto.
      split; [eauto|]. exists xs, l1. auto.
    + intros [[(xs & -> & F) (xs' & l1 & E1 & Hl & W & ->)] ->]. inversion E1; subst xs'.
      exists (length xs), l1, (map quiet (var_asks c elt xs)). repeat split; auto.
      apply rcan_var; auto; [lia|]. exists xs. auto 7.
  - intros fs IH c G seen e E v log out Hw Ht Hg Hc Ha.
    cbn [u_read wf_ty typed_ty carried_ty heard_ty] in *. rewrite (rl_record fs IH) by auto. split.
    + intros [(vs & -> & H1 & H2) ->]. split; auto. split; eauto.
    + intros [[(vs & -> & H1) (ws & E1 & H2)] ->]. inversion E1; subst. split; eauto.
  - intros n fs IH c G seen e E v log out Hw Ht Hg Hc Ha.
    cbn [u_read wf_ty typed_ty carried_ty heard_ty] in *. rewrite rcan_map. split.
    + intros (xs & -> & H). apply (rl_records fs IH) in H; auto. destruct H as (L & [F H] & ->).
      split; auto. split; eauto.
    + intros [[(xs & -> & F) (ys & E1 & L & H)] ->]. inversion E1; subst ys.
      exists xs. split; auto. apply (rl_records fs IH); auto.
  - intros fs IH recsz l b c G seen e E v log out Hw Ht Hg Hc Ha.
    cbn [u_read wf_ty typed_ty carried_ty heard_ty] in *.
    apply andb_true_iff in Hw. destruct Hw as [Hw H2].
    apply andb_true_iff in Hw. destruct Hw as [H1 H3]. apply Z.ltb_lt in H3.
    apply andb_true_iff in Ht. destruct Ht as [T1 T2].
    assert (HL : len_value e l) by (eapply len_value_typed; eauto).
    rewrite (rcan_sized c e E l seen) by auto. split.
    + intros (n & l1 & l2 & -> & Hl & H). destruct (len_allowed _ _ _) eqn:A; [|simpl in H; tauto].
      cbn [rcan] in H. destruct H as (l3 & -> & H). apply rcan_map in H. destruct H as (xs & -> & H).
      apply (rl_records fs IH) in H; auto. destruct H as (L & [F H] & ->). rewrite Nat2Z.id in L. subst n.
      split; auto. split; [eauto|]. exists xs, l1, l3. repeat split; auto.
      apply len_allowed_iff; auto.
    + intros [[(xs & -> & F) (ys & l1 & l2 & E1 & Hl & W & -> & H)] ->]. inversion E1; subst ys.
      exists (length xs), l1, (SMem (Z.of_nat (length xs) * recsz) :: l2). repeat split; auto.
      apply len_allowed_iff in W; auto. rewrite W. cbn [rcan]. exists l2. split; auto.
      apply rcan_map. exists xs. split; auto. apply (rl_records fs IH); auto. rewrite Nat2Z.id. auto.
  - intros b IH p ids c G seen e E v log out Hw Ht Hg Hc Ha.
    cbn [u_read wf_ty typed_ty carried_ty heard_ty] in *.
    apply andb_true_iff in Hw. destruct Hw as [H1 H2].
    apply andb_true_iff in Ht. destruct Ht as [_ Ht].
    destruct (covers_lookups _ _ _ Hc H1) as [vs Hv].
    rewrite <- (agree_lookups _ _ _ _ Ha H1), Hv. cbn [rcan]. split.
    + intros ([|] & l' & -> & H).
      * apply rcan_map in H. destruct H as (w & -> & H). apply (IH c G seen e E) in H; auto.
        destruct H as [[C Hh] ->]. split; auto. split; [right; eauto|]. exists vs. split; auto.
        right. exists w, l'. auto.
      * simpl in H. destruct H as (<- & -> & ->). split; auto. split; auto. exists vs. auto.
    + intros [[C (args & E1 & H)] ->]. inversion E1; subst args.
      destruct H as [[-> ->]|(w & l' & -> & -> & H)].
      * exists false, []. simpl. auto.
      * exists true, l'. split; auto. apply rcan_map. exists w. split; auto.
        destruct C as [|(w' & E2 & C)]; [discriminate|]. inversion E2; subst.
        apply (IH c G seen e E); auto.
  - intros g al IH c G seen e E v log out Hw Ht Hg Hc Ha.
    cbn [u_read wf_ty typed_ty carried_ty heard_ty] in *.
    apply andb_true_iff in Hw. destruct Hw as [H1 H2].
    apply andb_true_iff in Ht. destruct Ht as [T1 T2].
    rewrite rcan_bind. split.
    + intros ([i|] & l1 & l2 & o1 & o2 & -> & -> & R1 & R2); [|simpl in R2; tauto].
      eapply rcan_type in R1; eauto. destruct R1 as [R1 ->].
      apply rcan_map in R2. destruct R2 as (w & -> & R2). apply (IH c G seen e E) in R2; auto.
      destruct R2 as [[C Hh] ->]. split; auto. split; [eauto|]. exists i, w, l1, l2. auto.
    + intros [[(i & w & -> & C) (j & w' & l1 & l2 & E1 & Hh & Hx & ->)] ->]. inversion E1; subst.
      exists (Some j), l1, l2, [], (enc_alts (c_wire c) al j w'). repeat split; auto.
      * eapply rcan_type; eauto.
      * apply rcan_map. exists w'. split; auto. apply (IH c G seen e E); auto.
  - intros c G seen e E vs log out _ _ _ _ _ _ B. destruct vs as [|v vs]; [|simpl in B; tauto]. simpl. split; intros H; repeat split; tauto.
  - intros id t IHt k fs IHfs c G seen e E vs log out Hw Ht Hg Hc Hd Ha B.
    destruct vs as [|v vs]; [simpl in B; tauto|]. destruct B as [B1 B2].
    cbn [u_read_fields wf_fields typed_fields carried_fields heard_fields enc_fields] in *.
    apply andb_true_iff in Hw. destruct Hw as [Hw H3].
    apply andb_true_iff in Hw. destruct Hw as [H1 H2].
    apply andb_true_iff in Ht. destruct Ht as [Ht T3].
    apply andb_true_iff in Ht. destruct Ht as [T1 T2].
    assert (Hx : exists w, lookup e id = Some w) by (apply Hd; left; auto).
    assert (Q : forall l o, has_ty t v ->
       (rcan (u_read_fields c (update e id v) fs) vs l o <->
        (carried_fields c fs vs /\ heard_fields c E fs vs l) /\ o = enc_fields (c_wire c) fs vs)).
    { intros l o V. apply (IHfs c ((id, t) :: G) (id :: seen)); auto.
      - apply env_has_update; auto.
      - apply covers_update; auto.
      - apply dom_update. intros x Hi. apply Hd. right; auto.
      - apply agree_update; auto. }
    rewrite rcan_bind. split.
    + intros (v' & l1 & l2 & o1 & o2 & -> & -> & R1 & R2).
      apply rcan_map in R2. destruct R2 as (ws & E1 & R2). inversion E1; subst v' ws.
      apply (proj1 (rcan_maperr _ _ _ _ _)) in R1. apply rcan_bind in R1.
      destruct R1 as (w & l3 & l4 & o3 & o4 & -> & -> & R3 & R4). apply rcan_rcheck in R4.
      destruct R4 as (<- & Hk & ->). eapply IHt in R3; eauto. destruct R3 as [[C Hh] ->].
      apply Q in R2; [|eauto]. destruct R2 as [[C2 Hh2] ->]. rewrite app_nil_r, <- app_assoc.
      repeat split; auto. exists l3, l4, l2. auto.
    + intros [[[C C2] (l1 & l2 & l3 & -> & Hh & Hk & Hh2)] ->].
      exists v, (l1 ++ l2), l3, (enc_ty (c_wire c) t v), (enc_fields (c_wire c) fs vs).
      rewrite <- app_assoc. repeat split; auto.
      * apply rcan_maperr, rcan_bind. exists v, l1, l2, (enc_ty (c_wire c) t v), [].
        rewrite app_nil_r. repeat split; auto.
        -- eapply IHt; eauto.
        -- apply rcan_rcheck; auto.
      * apply rcan_map. exists vs. split; auto. apply Q; eauto.
  - intros c G seen e E i v log out _ _ _ _ _. simpl. tauto.
  - intros t IHt k al IHal c G seen e E i v log out Hw Ht Hg Hc Ha.
    cbn [u_read_alts wf_alts typed_alts carried_alts heard_alts enc_alts] in *.
    apply andb_true_iff in Hw. destruct Hw as [H1 H2].
    apply andb_true_iff in Ht. destruct Ht as [Ht T3].
    apply andb_true_iff in Ht. destruct Ht as [Ht T2].
    apply andb_true_iff in Ht. destruct Ht as [_ T1].
    destruct i; [|eapply IHal; eauto]. rewrite rcan_bind. split.
    + intros (w & l1 & l2 & o1 & o2 & -> & -> & R1 & R2). apply rcan_rcheck in R2.
      destruct R2 as (<- & Hk & ->). eapply IHt in R1; eauto. destruct R1 as [[C Hh] ->].
      rewrite app_nil_r. repeat split; auto. exists l1, l2. auto.
    + intros [[C (l1 & l2 & -> & Hh & Hk)] ->].
      exists v, l1, l2, (enc_ty (c_wire c) t v), []. rewrite app_nil_r. repeat split; auto.
      * eapply IHt; eauto.
      * apply rcan_rcheck; auto.
Qed.

(** ** Runs *)

Lemma rcan_run {E A} (H : host) (p : uprog E A) : hands_over H -> forall s a s' ev,
  urun H p s = (Ok a, s', ev) -> rcan p a (flat_map said_of ev) (flat_map given ev).
Proof.
  intros Hd. induction p; simpl; intros s a' s' ev R; try discriminate.
  - inversion R; subst. auto.
  - destruct (h_read H s n) as [[[bs|]|] s1] eqn:Q; try discriminate. apply Hd in Q. destruct Q as [L B].
    destruct (urun H (k bs) s1) as [[o1 s2] ev1] eqn:Q. injection R as -> <- <-. simpl. eauto 9.
  - destruct (h_alloc H s n) as [[[]|] s1]; try discriminate.
    destruct (urun H p s1) as [[o1 s2] ev1] eqn:Q. injection R as -> <- <-. simpl. eauto.
  - destruct (h_write H s bs) as [[[|]|] s1]; try discriminate.
    destruct (urun H p s1) as [[o1 s2] ev1] eqn:Q. injection R as -> <- <-. simpl. eauto.
  - destruct (h_num H s f args) as [[z|] s1]; try discriminate.
    destruct (urun H (k z) s1) as [[o1 s2] ev1] eqn:Q. injection R as -> <- <-. simpl. eauto 6.
  - destruct (h_test H s p args) as [[z|] s1]; try discriminate.
    destruct (urun H (k z) s1) as [[o1 s2] ev1] eqn:Q. injection R as -> <- <-. simpl. eauto 6.
  - destruct (h_check H s p v) as [[z|] s1]; try discriminate.
    destruct (urun H (k z) s1) as [[o1 s2] ev1] eqn:Q. injection R as -> <- <-. simpl. eauto 6.
Qed.

Lemma mod_bytes bs : Forall byte_ok bs -> map (fun b => b mod 256) bs = bs.
Proof.
  induction 1 as [|b bs Hb F IH]; simpl; auto. rewrite IH, Z.mod_small; auto.
Qed.

Lemma run_rcan {E A} (p : uprog E A) : forall a log out rest, rcan p a log out ->
  exists ev, urun by_script_in p (out ++ rest, log) = (Ok a, (rest, []), ev) /\
             flat_map said_of ev = log /\ flat_map given ev = out.
Proof.
  induction p; simpl; intros a' log out rest C; try tauto.
  - destruct C as (-> & -> & ->). exists []. auto.
  - destruct C as (bs & l & o & L & B & -> & -> & C). destruct (H _ _ _ _ rest C) as (ev & R & E1 & E2).
    rewrite <- app_assoc. simpl. rewrite app_length.
    destruct (Z.leb_spec n (Z.of_nat (length bs + length (o ++ rest)))); [|lia].
    rewrite <- L, firstn_app, firstn_all, Nat.sub_diag, firstn_O, app_nil_r, skipn_app, skipn_all, Nat.sub_diag.
    rewrite mod_bytes by auto. simpl. rewrite R. eexists. split; [reflexivity|]. simpl. split; congruence.
  - destruct C as (l & -> & C). destruct (IHp _ _ _ rest C) as (ev & R & E1 & E2). simpl. rewrite R.
    eexists. split; [reflexivity|]. simpl. split; congruence.
  - destruct C as (l & -> & C). destruct (IHp _ _ _ rest C) as (ev & R & E1 & E2). simpl. rewrite R.
    eexists. split; [reflexivity|]. simpl. split; congruence.
  - destruct C as (z & l & -> & C). destruct (H _ _ _ _ rest C) as (ev & R & E1 & E2). simpl. rewrite R.
    eexists. split; [reflexivity|]. simpl. split; congruence.
  - destruct C as (z & l & -> & C). destruct (H _ _ _ _ rest C) as (ev & R & E1 & E2). simpl. rewrite R.
    eexists. split; [reflexivity|]. simpl. split; congruence.
  - destruct C as (z & l & -> & C). destruct (H _ _ _ _ rest C) as (ev & R & E1 & E2). simpl. rewrite R.
    eexists. split; [reflexivity|]. simpl. split; congruence.
Qed.

Lemma script_hands_over : hands_over by_script_in.
Proof.
  intros [l [|x s1]] n bs s'; [discriminate|]. destruct x; simpl; try discriminate.
  destruct (Z.leb_spec n (Z.of_nat (length l))); intros R; inversion R; subst. split.
  - rewrite map_length, firstn_length. lia.
  - apply Forall_forall. intros x Hx. apply in_map_iff in Hx. destruct Hx as (y & <- & _).
    apply Z.mod_pos_bound. lia.
Qed.

Lemma read_log c fs : wf fs = true -> typed fs = true ->
  (forall H s vs s' ev, hands_over H -> urun H (u_struct_cast c fs) s = (Ok vs, s', ev) ->
     carried_fields c fs vs /\ heard_fields c (mk_env fs vs) fs vs (flat_map said_of ev) /\
     flat_map given ev = enc_fields (c_wire c) fs vs) /\
  (forall vs log rest, carried_fields c fs vs -> heard_fields c (mk_env fs vs) fs vs log ->
     exists ev, urun by_script_in (u_struct_cast c fs) (enc_fields (c_wire c) fs vs ++ rest, log)
                  = (Ok vs, (rest, []), ev) /\
                flat_map said_of ev = log /\ flat_map given ev = enc_fields (c_wire c) fs vs).
Proof.
  intros Hw Ht. destruct reader_log as (_ & HF & _).
  pose proof (fun vs log out => rl_cast fs (HF fs) c vs log out Hw Ht) as Q. split.
  - intros H s vs s' ev Hd R. apply rcan_run in R; auto. apply Q in R. tauto.
  - intros vs log rest C Hh. apply run_rcan. apply Q. auto.
Qed.

Lemma read_log_iff c fs vs log : wf fs = true -> typed fs = true ->
  ((exists H s s' ev, hands_over H /\ urun H (u_struct_cast c fs) s = (Ok vs, s', ev) /\
                      flat_map said_of ev = log) <->
   carried_fields c fs vs /\ heard_fields c (mk_env fs vs) fs vs log).
Proof.
  intros Hw Ht. destruct (read_log c fs Hw Ht) as [R1 R2]. split.
  - intros (H & s & s' & ev & Hd & R & <-). destruct (R1 _ _ _ _ _ Hd R) as (A & B & _). auto.
  - intros [C Hh]. destruct (R2 vs log [] C Hh) as (ev & R & E1 & E2).
    exists by_script_in, (enc_fields (c_wire c) fs vs ++ [], log), ([], []), ev.
    auto using script_hands_over.
Qed.
