(** What a read amounts to whatever user code answers. *)
From Coq Require Import ZifyBool ZifyNat.
From Verif Require Import UserSpec Typing BytesFacts ProgFacts ReadFacts ReadMore Safety CallFacts.

(** Whatever is answered, a program that ends in [a] having said [l] has [P a l];
    undefined behaviour only if [ub]. *)
Fixpoint utr (ub : Prop) {E A} (p : uprog E A) (P : A -> list said -> Prop) : Prop :=
  match p with
  | URet a => P a []
  | UErr _ => True
  | UUB => ub
  | UStuck => False
  | URead n _ k => forall bs, length bs = Z.to_nat n -> Forall byte_ok bs ->
                   utr ub (k bs) (fun a l => P a (SRead n :: l))
  | UAlloc n k => utr ub k (fun a l => P a (SMem n :: l))
  | UWrite bs _ k => utr ub k (fun a l => P a (SWrite bs :: l))
  | UNum f args k => forall z, utr ub (k z) (fun a l => P a (SNum f args z :: l))
  | UTest p args k => forall b, utr ub (k b) (fun a l => P a (STest p args b :: l))
  | UCheck p v k => forall b, utr ub (k b) (fun a l => P a (SCheck p v b :: l))
  end.

Lemma utr_imp (ub : Prop) {E A} (p : uprog E A) : forall P Q : A -> list said -> Prop,
  (forall a l, P a l -> Q a l) -> utr ub p P -> utr ub p Q.
Proof.
  induction p; simpl; intros P Q HI; auto.
  - intros T bs L B. eapply H; [|apply T; auto]. intros a l. apply HI.
  - apply IHp. intros a l. apply HI.
  - apply IHp. intros a l. apply HI.
  - intros T z. eapply H; [|apply T; auto]. intros a l. apply HI.
  - intros T z. eapply H; [|apply T; auto]. intros a l. apply HI.
  - intros T z. eapply H; [|apply T; auto]. intros a l. apply HI.
Qed.

Lemma utr_bind (ub : Prop) {E A B} (p : uprog E A) (f : A -> uprog E B) :
  forall (P : A -> list said -> Prop) (Q : B -> list said -> Prop),
  (forall a l, P a l -> utr ub (f a) (fun b l' => Q b (l ++ l'))) ->
  utr ub p P -> utr ub (ubind p f) Q.
Proof.
  induction p; simpl; intros P Q HI; auto.
  - intros T. apply (utr_imp _ _ _ _ (fun b l X => X) (HI a [] T)).
  - intros T bs' L B'. eapply H; [|apply T; auto]. intros a l X. apply (HI a (SRead n :: l) X).
  - apply IHp. intros a l X. apply (HI a (SMem n :: l) X).
  - apply IHp. intros a l X. apply (HI a (SWrite bs :: l) X).
  - intros T z. eapply H; [|apply T; auto]. intros a l X. apply (HI a (SNum f0 args z :: l) X).
  - intros T z. eapply H; [|apply T; auto]. intros a l X. apply (HI a (STest p args z :: l) X).
  - intros T z. eapply H; [|apply T; auto]. intros a l X. apply (HI a (SCheck p v z :: l) X).
Qed.

Lemma utr_maperr (ub : Prop) {E E' A} (g : E -> E') (p : uprog E A) : forall P,
  utr ub p P -> utr ub (umaperr g p) P.
Proof. induction p; simpl; intros P T; auto. Qed.

Lemma utr_map (ub : Prop) {E A B} (p : uprog E A) (f : A -> B) (P : A -> list said -> Prop)
  (Q : B -> list said -> Prop) :
  (forall a l, P a l -> Q (f a) l) -> utr ub p P -> utr ub (ubind p (fun a => URet (f a))) Q.
Proof. intros H. apply utr_bind. intros a l X. simpl. rewrite app_nil_r. auto. Qed.

Lemma utr_rep (ub : Prop) {E} (p : uprog E val) (P : val -> list said -> Prop) n :
  utr ub p P -> utr ub (urep n p) (fun xs l => length xs = n /\ in_turn P xs l).
Proof.
  intros H. induction n; simpl; auto. eapply utr_bind; [|exact H].
  intros a l Ha. eapply utr_bind; [|exact IHn].
  intros xs l' [<- Hx]. simpl. split; auto. rewrite app_nil_r. eauto.
Qed.

Lemma utr_of_r (ub : Prop) {E A} (p : rprog E A) : forall (Q : A -> Prop) (P : A -> list ask -> Prop),
  rsafe ub Q p -> tracks p P ->
  utr ub (of_r p) (fun a l => Q a /\ exists l', l = map quiet l' /\ P a l').
Proof.
  induction p; simpl; intros Q P HS HT; auto.
  - split; auto. exists []. auto.
  - intros bs L B. eapply utr_imp; [|apply (H bs Q _ (HS bs L B) (HT bs))].
    intros a l (HQ & l' & -> & HP). split; auto. exists (AskRead n :: l'). auto.
  - eapply utr_imp; [|apply (IHp Q _ HS HT)].
    intros a l (HQ & l' & -> & HP). split; auto. exists (AskMem n :: l'). auto.
Qed.

Lemma tracks_var_len c elt len b : ct_wf elt = true -> 0 <= len ->
  tracks (read_var c elt len b) (fun v l => exists xs, v = VSeq xs /\ l = var_asks c elt xs /\
    Z.of_nat (length xs) = len /\ within c b (Z.of_nat (csize elt)) (length xs)).
Proof.
  intros Hw Hl. pose proof (csize_pos _ Hw). unfold read_var.
  destruct (len_allowed (ceiling c b) (Z.of_nat (csize elt)) len) eqn:A; simpl; auto.
  eapply tracks_bind with (P := fun _ l => l = if c_cx c then _ else _); [|apply tracks_raw; reflexivity].
  intros mem l ->. destruct (sequence _) as [vs|] eqn:E; simpl; auto.
  exists vs. split; auto. rewrite app_nil_r.
  apply sequence_length in E. rewrite map_length, chunks_len in E.
  unfold var_asks. rewrite E, Z2Nat.id by auto.
  rewrite (allowed_product _ _ _ _ Hl (Nat2Z.is_nonneg _) A). split; [f_equal|split; auto].
  - destruct (c_cx c); auto. rewrite <- E. clear. induction vs; simpl; congruence.
  - apply len_allowed_iff; [lia|]. rewrite Z2Nat.id; auto.
Qed.

Lemma utr_len {ub : Prop} c e l seen : len_value e l -> len_wf seen l = true ->
  utr ub (u_len c e l) (fun n log => 0 <= n /\
    forall E, agree seen e E -> forall k, Z.of_nat k = n -> heard_len c E l k log).
Proof.
  intros Hv Hw. destruct l; simpl in *.
  - destruct Hv as [z Hz]. rewrite Hz. simpl. split; [apply (proj1 (to_size_range c z))|].
    intros E Ha k Hk. split; auto. exists z. rewrite <- (Ha id Hw). split; auto.
  - destruct Hv as [vs Hv]. rewrite Hv. simpl. intros z. split; [apply (proj1 (to_size_range c z))|].
    intros E Ha k Hk. exists vs, z. rewrite <- (agree_lookups _ _ _ _ Ha Hw). repeat split; auto.
Qed.

Lemma utr_ladder {ub : Prop} e seen brs : covers seen e ->
  forallb (fun b => all_in (snd b) seen) brs = true ->
  utr ub (u_ladder e brs) (fun r log => forall i, r = Some i -> (i < length brs)%nat /\
    forall E, agree seen e E -> heard_ladder E brs i log).
Proof.
  intros Hc. induction brs as [|[p ids] brs IH]; simpl; intros H; [intros; discriminate|].
  apply andb_true_iff in H. destruct H as [H1 H2].
  destruct (covers_lookups _ _ _ Hc H1) as [vs Hv]. rewrite Hv. simpl. intros [|]; simpl.
  - intros i Hi. inversion Hi; subst. split; [lia|]. intros E Ha. exists vs.
    rewrite <- (agree_lookups _ _ _ _ Ha H1). auto.
  - eapply utr_map; [|apply IH; auto]. intros r l Hr i Hi.
    destruct r as [j|]; simpl in Hi; inversion Hi; subst. destruct (Hr j eq_refl) as [L Hj].
    split; [lia|]. intros E Ha. exists vs, l. rewrite <- (agree_lookups _ _ _ _ Ha H1). auto.
Qed.

Lemma utr_type {ub : Prop} G seen e g n : env_has G e -> covers seen e ->
  guide_wf seen g = true -> guide_typed G g n = true ->
  utr ub (u_type e g) (fun r log => forall i, r = Some i -> (i < n)%nat /\
    forall E, agree seen e E -> heard_guide E g i log).
Proof.
  intros Hg Hc Hw Ht. destruct g; simpl in *.
  - destruct (tlookup G id) as [t|] eqn:E; [|discriminate].
    apply Hg in E. destruct E as (v & Hl & Hv).
    destruct t as [[s'| | |]| | | | | |]; try discriminate. simpl in Hv. destruct v; try tauto.
    rewrite Hl. apply andb_true_iff in Ht. destruct Ht as [_ Ht]. apply Nat.eqb_eq in Ht.
    simpl. intros i Hi. split.
    + apply first_true_lt in Hi. rewrite map_length in Hi. lia.
    + intros E Ha. split; auto. exists z. rewrite <- (Ha id Hw). split; auto. apply eval_switch_iff; auto.
  - destruct (covers_lookups _ _ _ Hc Hw) as [vs Hv]. rewrite Hv. apply Nat.eqb_eq in Ht.
    simpl. intros z i Hi. split.
    + apply first_true_lt in Hi. rewrite map_length in Hi. lia.
    + intros E Ha. exists vs, z. rewrite <- (agree_lookups _ _ _ _ Ha Hw). repeat split; auto;
        apply eval_switch_iff; auto.
  - apply Nat.eqb_eq in Ht. subst. apply utr_ladder; auto.
Qed.

Lemma utr_rcheck ub t k v : constr_ok t k = true -> has_ty t v -> (tame t k = true \/ ub) ->
  utr ub (u_rcheck k v) (fun w log => w = v /\ heard_check k v log).
Proof.
  intros Hk Hv Hu. destruct (check_typed t k v Hk Hv) as [H1 H2]. unfold u_rcheck, u_holds.
  assert (Q : match check k v with
    | CTrue => holds k v | CFalse => True | CUndef => ub | CStuck => False end).
  { destruct (check k v) eqn:E; auto.
    - apply check_holds; auto.
    - destruct Hu as [Hu|Hu]; auto. elim (H2 Hu eq_refl). }
  destruct k; try (destruct (check _ v); simpl; auto; fail). simpl. intros []; simpl; auto.
Qed.

Definition ur_ty (t : fty) : Prop := forall (ub : Prop) c G seen e,
  wf_ty seen t = true -> typed_ty G t = true -> (plain_ty t = true \/ ub) ->
  env_has G e -> covers seen e ->
  utr ub (u_read c e t) (fun v log => has_ty t v /\ forall E, agree seen e E -> heard_ty c E t v log).
Definition ur_fields (fs : fields) : Prop := forall (ub : Prop) c G seen e,
  wf_fields seen fs = true -> typed_fields G fs = true -> (plain_fields fs = true \/ ub) ->
  env_has G e -> covers seen e -> dom fs e ->
  utr ub (u_read_fields c e fs) (fun vs log => has_fields fs vs /\
    forall E, agree seen e E -> binds E fs vs -> heard_fields c E fs vs log).
Definition ur_alts (al : alts) : Prop := forall (ub : Prop) c G seen e i,
  wf_alts seen al = true -> typed_alts G al = true -> (plain_alts al = true \/ ub) ->
  env_has G e -> covers seen e -> (i < a_len al)%nat ->
  utr ub (u_read_alts c e al i) (fun v log => has_alt al i v /\
    forall E, agree seen e E -> heard_alts c E al i v log).

Lemma has_fields_len fs : forall vs, has_fields fs vs -> length vs = f_len fs.
Proof. induction fs; intros [|v vs]; simpl; try tauto. intros [_ H]. auto. Qed.

Lemma ur_cast fs : ur_fields fs -> forall (ub : Prop) c,
  wf_fields [] fs = true -> typed_fields [] fs = true -> (plain_fields fs = true \/ ub) ->
  utr ub (u_read_fields c (mk_env fs (default_fields fs)) fs)
    (fun vs log => has_fields fs vs /\ heard_fields c (mk_env fs vs) fs vs log).
Proof.
  intros IH ub c Hw Ht Hp. destruct (wf_fields_ids _ _ Hw) as [Hnd _].
  eapply utr_imp; [|apply (IH ub c [] []); auto].
  - intros vs log [H1 H2]. split; auto. apply H2; [intros id; discriminate|].
    apply binds_mk_env; auto. apply has_fields_len; auto.
  - intros ? ? Hl; discriminate.
  - intros ? [].
  - apply dom_mk_env, default_fields_length.
Qed.

Lemma ur_record fs : ur_fields fs -> forall (ub : Prop) c,
  wf_fields [] fs = true -> typed_fields [] fs = true -> (plain_fields fs = true \/ ub) ->
  utr ub (ubind (umaperr fst (u_read_fields c (mk_env fs (default_fields fs)) fs))
                (fun vs => URet (VRec vs)))
    (fun x log => match x with VRec vs => has_fields fs vs | _ => False end /\
       exists vs, x = VRec vs /\ heard_fields c (mk_env fs vs) fs vs log).
Proof.
  intros IH ub c Hw Ht Hp. eapply utr_map; [|apply utr_maperr, ur_cast; eauto].
  simpl. intros vs l [H1 H2]. eauto.
Qed.

Lemma in_turn_split (P : val -> Prop) (Q : val -> list said -> Prop) xs : forall log,
  in_turn (fun x l => P x /\ Q x l) xs log -> Forall P xs /\ in_turn Q xs log.
Proof.
  induction xs as [|x xs IH]; simpl; intros log H; auto.
  destruct H as (l1 & l2 & -> & [H1 H2] & H3). apply IH in H3. destruct H3. split; eauto 6.
Qed.

Lemma reader_heard : (forall t, ur_ty t) /\ (forall fs, ur_fields fs) /\ (forall al, ur_alts al).
Proof.
  apply schema_mutind; unfold ur_ty, ur_alts.
  - intros t n ub c G seen e Hw Ht Hp Hg Hc. cbn [u_read wf_ty plain_ty] in *.
    apply andb_true_iff in Hw. destruct Hw as [H1 H2].
    eapply utr_imp; [|apply (utr_of_r ub (read_fixed c t n) (ct_ok t) (fun _ l => l = [AskRead (Z.of_nat n)]))].
    + intros v l (V & l' & -> & ->). split; auto. intros E _. reflexivity.
    + apply read_fixed_safe; auto. destruct t; lia.
    + unfold read_fixed. destruct (Nat.ltb _ _); simpl; auto.
      intros bs. destruct (load _ _ _); simpl; auto.
  - intros elt l b ub c G seen e Hw Ht Hp Hg Hc. cbn [u_read wf_ty plain_ty typed_ty] in *.
    apply andb_true_iff in Hw. destruct Hw as [H1 H2].
    eapply utr_bind; [|apply (utr_len c e l seen); eauto using len_value_typed].
    intros n log [Hn Hh].
    eapply utr_imp; [|apply (utr_of_r ub _ _ _ (read_var_safe c ub elt b n H1 Hn Hp)
                                (tracks_var_len c elt n b H1 Hn))].
    intros v log' ((xs & -> & Hx) & l' & -> & xs' & Ex & -> & Hl & Hwi).
    inversion Ex; subst xs'; clear Ex. split; [exact Hx|]. intros E Ha.
    exists xs, log. repeat split; auto.
  - intros fs IH ub c G seen e Hw Ht Hp Hg Hc.
    eapply utr_imp; [|apply ur_record; eauto]. intros x lg [V H]; destruct x; simpl; try tauto; auto.
  - intros n fs IH ub c G seen e Hw Ht Hp Hg Hc. cbn [u_read].
    eapply utr_map; [|apply utr_rep, ur_record; eauto].
    intros xs l [L H]. apply in_turn_split in H. destruct H as [V H].
    split; [simpl; auto|]. intros E _. exists xs. auto.
  - intros fs IH recsz l b ub c G seen e Hw Ht Hp Hg Hc. cbn [u_read wf_ty typed_ty] in *.
    apply andb_true_iff in Hw. destruct Hw as [Hw H2].
    apply andb_true_iff in Hw. destruct Hw as [H1 H3]. apply Z.ltb_lt in H3.
    apply andb_true_iff in Ht. destruct Ht as [T1 T2].
    eapply utr_bind; [|apply (utr_len c e l seen); eauto using len_value_typed].
    intros n log [Hn Hh]. destruct (len_allowed _ _ _) eqn:A; simpl; auto.
    eapply utr_map; [|apply utr_rep, ur_record; eauto].
    intros xs l' [L H]. apply in_turn_split in H. destruct H as [V H].
    assert (Hl : Z.of_nat (length xs) = n) by lia.
    split; [simpl; auto|]. intros E Ha. exists xs, log, l'. rewrite Hl. repeat split; auto.
    apply len_allowed_iff; auto. rewrite Hl. auto.
  - intros b IH p ids ub c G seen e Hw Ht Hp Hg Hc. cbn [u_read wf_ty typed_ty] in *.
    apply andb_true_iff in Hw. destruct Hw as [H1 H2].
    apply andb_true_iff in Ht. destruct Ht as [_ Ht].
    destruct (covers_lookups _ _ _ Hc H1) as [vs Hv]. rewrite Hv. intros [|].
    + eapply utr_map; [|eapply IH; eauto]. intros v l [V H]. split; auto.
      intros E Ha. exists vs. rewrite <- (agree_lookups _ _ _ _ Ha H1). split; auto. right. exists v, l. auto.
    + simpl. split; auto. intros E Ha. exists vs. rewrite <- (agree_lookups _ _ _ _ Ha H1). auto.
  - intros g al IH ub c G seen e Hw Ht Hp Hg Hc. cbn [u_read wf_ty typed_ty] in *.
    apply andb_true_iff in Hw. destruct Hw as [H1 H2].
    apply andb_true_iff in Ht. destruct Ht as [T1 T2].
    eapply utr_bind; [|eapply utr_type; eauto].
    intros [i|] log Hr; simpl; auto. destruct (Hr i eq_refl) as [L Hi].
    eapply utr_map; [|eapply IH; eauto]. intros v l [V H]. split; auto.
    intros E Ha. exists i, v, log, l. auto.
  - intros ub c G seen e _ _ _ _ _ _. simpl. auto.
  - intros id t IHt k fs IHfs ub c G seen e Hw Ht Hp Hg Hc Hd.
    cbn [u_read_fields wf_fields typed_fields plain_fields] in *.
    apply andb_true_iff in Hw. destruct Hw as [Hw H3].
    apply andb_true_iff in Hw. destruct Hw as [H1 H2].
    apply andb_true_iff in Ht. destruct Ht as [Ht T3].
    apply andb_true_iff in Ht. destruct Ht as [T1 T2].
    apply plain_and in Hp. destruct Hp as [Hp P3]. apply plain_and in Hp. destruct Hp as [P1 P2].
    assert (Hx : exists w, lookup e id = Some w) by (apply Hd; left; auto).
    eapply utr_bind with (P := fun v log => has_ty t v /\ exists l1 l2, log = l1 ++ l2 /\
       heard_check k v l2 /\ forall E, agree seen e E -> heard_ty c E t v l1).
    + intros v log (V & l1 & l2 & -> & Hk & Hv). eapply utr_map.
      2: { eapply (IHfs ub c ((id, t) :: G) (id :: seen)); eauto.
           - apply env_has_update; auto.
           - apply covers_update; auto.
           - apply dom_update. intros x Hi. apply Hd. right; auto. }
      intros vs l3 [W H]. split; [simpl; auto|]. intros E Ha [B1 B2].
      exists l1, l2, l3. rewrite <- app_assoc. repeat split; auto. apply H; auto.
      apply agree_update; auto.
    + apply utr_maperr. eapply utr_bind; [|eapply IHt; eauto].
      intros v l1 [V Hv]. eapply utr_imp; [|eapply utr_rcheck; eauto].
      intros w l2 [-> Hk]. split; auto. exists l1, l2. auto.
  - intros ub c G seen e i _ _ _ _ _ Hi. simpl in Hi. lia.
  - intros t IHt k al IHal ub c G seen e i Hw Ht Hp Hg Hc Hi.
    cbn [u_read_alts wf_alts typed_alts plain_alts a_len] in *.
    apply andb_true_iff in Hw. destruct Hw as [H1 H2].
    apply andb_true_iff in Ht. destruct Ht as [Ht T3].
    apply andb_true_iff in Ht. destruct Ht as [Ht T2].
    apply andb_true_iff in Ht. destruct Ht as [_ T1].
    apply plain_and in Hp. destruct Hp as [Hp P3]. apply plain_and in Hp. destruct Hp as [P1 P2].
    destruct i.
    + eapply utr_bind; [|eapply IHt; eauto].
      intros v l1 [V Hv]. eapply utr_imp; [|eapply utr_rcheck; eauto].
      intros w l2 [-> Hk]. split; auto. intros E Ha. exists l1, l2. auto.
    + eapply IHal; eauto. lia.
Qed.

Lemma utr_run (ub : Prop) {E A} (H : host) (p : uprog E A) : hands_over H -> forall P s o s' ev,
  utr ub p P -> urun H p s = (o, s', ev) ->
  o <> Stuck /\ (o = UB -> ub) /\ (forall a, o = Ok a -> P a (flat_map said_of ev)).
Proof.
  intros Hd. induction p; simpl; intros P s o s' ev T R;
    try (injection R as <- <- <-; repeat split; auto; try discriminate; fail).
  - injection R as <- <- <-. repeat split; try discriminate. intros b Hb. inversion Hb; subst; auto.
  - destruct (h_read H s n) as [[[bs|]|] s1] eqn:Q.
    + apply Hd in Q. destruct Q as [L B]. destruct (urun H (k bs) s1) as [[o1 s2] ev1] eqn:Q.
      injection R as <- <- <-. exact (H0 _ _ _ _ _ _ (T bs L B) Q).
    + injection R as <- <- <-. repeat split; discriminate.
    + injection R as <- <- <-. repeat split; discriminate.
  - destruct (h_alloc H s n) as [[[]|] s1].
    + destruct (urun H p s1) as [[o1 s2] ev1] eqn:Q.
      injection R as <- <- <-. exact (IHp _ _ _ _ _ T Q).
    + injection R as <- <- <-. repeat split; discriminate.
  - destruct (h_write H s bs) as [[[|]|] s1].
    + destruct (urun H p s1) as [[o1 s2] ev1] eqn:Q.
      injection R as <- <- <-. exact (IHp _ _ _ _ _ T Q).
    + injection R as <- <- <-. repeat split; discriminate.
    + injection R as <- <- <-. repeat split; discriminate.
  - destruct (h_num H s f args) as [[z|] s1].
    + destruct (urun H (k z) s1) as [[o1 s2] ev1] eqn:Q.
      injection R as <- <- <-. exact (H0 _ _ _ _ _ _ (T z) Q).
    + injection R as <- <- <-. repeat split; discriminate.
  - destruct (h_test H s p args) as [[z|] s1].
    + destruct (urun H (k z) s1) as [[o1 s2] ev1] eqn:Q.
      injection R as <- <- <-. exact (H0 _ _ _ _ _ _ (T z) Q).
    + injection R as <- <- <-. repeat split; discriminate.
  - destruct (h_check H s p v) as [[z|] s1].
    + destruct (urun H (k z) s1) as [[o1 s2] ev1] eqn:Q.
      injection R as <- <- <-. exact (H0 _ _ _ _ _ _ (T z) Q).
    + injection R as <- <- <-. repeat split; discriminate.
Qed.

Lemma any_read c fs H s o s' ev : wf fs = true -> typed fs = true -> hands_over H ->
  urun H (u_struct_cast c fs) s = (o, s', ev) ->
  o <> Stuck /\ (plain_fields fs = true -> o <> UB) /\
  (forall vs, o = Ok vs -> has_fields fs vs /\
     heard_fields c (mk_env fs vs) fs vs (flat_map said_of ev)).
Proof.
  intros Hw Ht Hd R. destruct reader_heard as (_ & HF & _).
  pose proof (ur_cast fs (HF fs) (plain_fields fs <> true) c Hw Ht
    ltac:(destruct (plain_fields fs); [left|right]; congruence)) as Q.
  destruct (utr_run _ H _ Hd _ _ _ _ _ Q R) as (H1 & H2 & H3).
  split; [auto|]. split; [|auto]. intros Hp Ho. apply H2 in Ho. tauto.
Qed.
