(** * Facts about type ids, meta::invoke and static_array *)
From Verif Require Import StaticMore.
From Verif Require Export MetaSpec.
From Coq Require Import Lia ZifyBool ZifyNat.
Import ListNotations.

Lemma numbered_fst ts : map fst (numbered ts) = upto (length ts).
Proof.
  unfold numbered, upto. generalize 0%nat. induction ts as [|t ts IH]; intros a; simpl; auto.
  f_equal. apply IH.
Qed.

Lemma combine_snoc {A B} (l : list A) (r : list B) a b : length l = length r ->
  combine (l ++ [a]) (r ++ [b]) = combine l r ++ [(a, b)].
Proof.
  revert r. induction l as [|x l IH]; intros [|y r] H; simpl in *; try discriminate; auto.
  f_equal. apply IH. lia.
Qed.

Lemma numbered_snoc ts t : numbered (ts ++ [t]) = numbered ts ++ [(Z.of_nat (length ts), t)].
Proof.
  unfold numbered. rewrite app_length. simpl. rewrite Nat.add_1_r, seq_S, map_app. simpl.
  apply combine_snoc. rewrite map_length, seq_length. auto.
Qed.

Lemma known_from ts : forall a i t, NoDup ts -> nth_error ts i = Some t ->
  known_id (combine (map Z.of_nat (seq a (length ts))) ts) t = Some (Z.of_nat (a + i)).
Proof.
  induction ts as [|u ts IH]; intros a i t Hd Hi; [destruct i; discriminate|]. inversion Hd; subst.
  simpl. destruct i as [|i]; simpl in Hi.
  - inversion Hi; subst. rewrite Nat.eqb_refl, Nat.add_0_r. auto.
  - destruct (Nat.eqb_spec u t) as [->|NE].
    + exfalso. apply nth_error_In in Hi. auto.
    + rewrite (IH (S a) i t); auto. do 2 f_equal. lia.
Qed.

Lemma known_not ts : forall a t, ~ In t ts ->
  known_id (combine (map Z.of_nat (seq a (length ts))) ts) t = None.
Proof.
  induction ts as [|u ts IH]; intros a t Hn; simpl in *; auto.
  destruct (Nat.eqb_spec u t); [tauto|]. apply IH. tauto.
Qed.

Lemma type_of_from ts : forall a i,
  type_of (combine (map Z.of_nat (seq a (length ts))) ts) (Z.of_nat (a + i)) = nth_error ts i.
Proof.
  induction ts as [|u ts IH]; intros a i; simpl; [destruct i; auto|].
  destruct i as [|i]; simpl.
  - rewrite Nat.add_0_r, Z.eqb_refl. auto.
  - destruct (Z.eqb_spec (Z.of_nat a) (Z.of_nat (a + S i))); [lia|].
    rewrite <- (IH (S a) i). f_equal. lia.
Qed.

Lemma type_of_numbered ts i : type_of (numbered ts) (Z.of_nat i) = nth_error ts i.
Proof. exact (type_of_from ts 0 i). Qed.

Lemma gen_ext szw tk tk' f : (forall i, tk i = tk' i) -> forall l r, gen szw tk f l r = gen szw tk' f l r.
Proof.
  intros H. induction f as [|f IH]; intros l r; simpl; auto.
  rewrite !H. destruct (r <=? l); auto. destruct (tk' _); auto.
Qed.

Lemma id_known szw fuel ts i t : NoDup ts -> nth_error ts i = Some t ->
  type_id szw fuel (numbered ts) t = Some (Z.of_nat i, numbered ts).
Proof.
  intros Hd Hi. unfold type_id, numbered. rewrite (known_from ts 0 i t Hd Hi). auto.
Qed.

Lemma id_new szw : (2 <= szw)%nat -> exists F, forall fuel ts t, (F <= fuel)%nat -> ~ In t ts ->
  (length ts <= 1024)%nat ->
  type_id szw fuel (numbered ts) t = Some (Z.of_nat (length ts), numbered (ts ++ [t])).
Proof.
  intros Hs. destruct (gen_fuel szw Hs) as (F & HF). exists F. intros fuel ts t Hfu Hn HL.
  unfold type_id. unfold numbered at 1. rewrite known_not by auto.
  rewrite (gen_ext _ _ (fun i => existsb (Z.eqb i) (upto (length ts)))).
  2: { intros i. unfold given_ids. rewrite numbered_fst. auto. }
  rewrite HF by auto. unfold given_ids. rewrite numbered_fst, upto_taken by lia.
  rewrite Z.ltb_irrefl, numbered_snoc. auto.
Qed.

Lemma id_none szw fuel ts t : (2 <= szw)%nat -> (1024 <= fuel)%nat -> ~ In t ts -> (1025 <= length ts)%nat ->
  type_id szw fuel (numbered ts) t = None.
Proof.
  intros Hs Hfu Hn HL. unfold type_id. unfold numbered at 1. rewrite known_not by auto.
  rewrite (gen_ext _ _ (fun i => existsb (Z.eqb i) (upto (length ts)))).
  2: { intros i. unfold given_ids. rewrite numbered_fst. auto. }
  destruct fuel as [|f]; [lia|].
  assert (gen szw (fun i => existsb (Z.eqb i) (upto (length ts))) (S f) 0 max_type_id = Some 1024) as ->.
  { unfold max_type_id. change 1024 with (1023 + 1). eapply (gen_full szw _ (Z.of_nat (length ts))).
    2: { intros i Hi. apply upto_taken. auto. } all: lia. }
  unfold given_ids. rewrite numbered_fst, upto_taken by lia.
  destruct (Z.ltb_spec 1024 (Z.of_nat (length ts))); [auto|lia].
Qed.

Lemma mention_in ts t : In t ts -> mention ts t = ts.
Proof. unfold mention. destruct (in_dec _ _ _); tauto. Qed.
Lemma mention_out ts t : ~ In t ts -> mention ts t = ts ++ [t].
Proof. unfold mention. destruct (in_dec _ _ _); tauto. Qed.

Lemma mention_nodup ts t : NoDup ts -> NoDup (mention ts t).
Proof.
  intros Hd. unfold mention. destruct (in_dec _ _ _); auto.
  apply NoDup_Add with (a := t) (l := ts); [|auto].
  pose proof (Add_app t ts []) as H. rewrite app_nil_r in H. exact H.
Qed.

Lemma mention_has ts t : In t (mention ts t).
Proof. unfold mention. destruct (in_dec _ _ _); auto. apply in_or_app. simpl. auto. Qed.

Lemma mention_ext ts t : exists more, mention ts t = ts ++ more.
Proof. unfold mention. destruct (in_dec _ _ _); [exists []; rewrite app_nil_r|exists [t]]; auto. Qed.

Lemma mentions_ext us : forall ts, exists more, fold_left mention us ts = ts ++ more.
Proof.
  induction us as [|u us IH]; intros ts; simpl; [exists []; rewrite app_nil_r; auto|].
  destruct (mention_ext ts u) as (m1 & E1). destruct (IH (mention ts u)) as (m2 & E2).
  exists (m1 ++ m2). rewrite E2, E1, app_assoc. auto.
Qed.

Lemma mentions_nodup us : forall ts, NoDup ts -> NoDup (fold_left mention us ts).
Proof. induction us; intros ts H; simpl; auto. apply IHus. apply mention_nodup; auto. Qed.

Lemma nth_ext {A} (l m : list A) i x : nth_error l i = Some x -> nth_error (l ++ m) i = Some x.
Proof. intros H. rewrite nth_error_app1; auto. apply nth_error_Some. congruence. Qed.

(** One mention, in all cases. *)
Lemma id_mention szw : (2 <= szw)%nat -> exists F, forall fuel ts t, (F <= fuel)%nat -> NoDup ts ->
  (length ts <= 1025)%nat ->
  if (length (mention ts t) <=? 1025)%nat
  then exists j, nth_error (mention ts t) j = Some t /\
                 type_id szw fuel (numbered ts) t = Some (Z.of_nat j, numbered (mention ts t))
  else type_id szw fuel (numbered ts) t = None.
Proof.
  intros Hs. destruct (id_new szw Hs) as (F & HF). exists (Nat.max F 1024).
  intros fuel ts t Hfu Hd HL. destruct (in_dec Nat.eq_dec t ts) as [Hi|Hi].
  - rewrite mention_in by auto. destruct (Nat.leb_spec (length ts) 1025); [|lia].
    destruct (In_nth_error _ _ Hi) as (j & Hj). exists j. split; auto. apply id_known; auto.
  - rewrite mention_out by auto. rewrite app_length. simpl.
    destruct (Nat.leb_spec (length ts + 1) 1025).
    + exists (length ts). split; [|apply HF; auto; lia].
      rewrite nth_error_app2, Nat.sub_diag by lia. auto.
    + apply id_none; auto; lia.
Qed.

Section Dispatch.
Variables (szw fuel : nat) (tr : cxx -> trait_of).
Hypothesis HI : forall ts t, NoDup ts -> (length ts <= 1025)%nat ->
  if (length (mention ts t) <=? 1025)%nat
  then exists j, nth_error (mention ts t) j = Some t /\
                 type_id szw fuel (numbered ts) t = Some (Z.of_nat j, numbered (mention ts t))
  else type_id szw fuel (numbered ts) t = None.

Lemma dispatch_values n : forall ts a, (a + n <= length ts)%nat ->
  (forall i t, (a <= i < a + n)%nat -> nth_error ts i = Some t -> to_value tr t) ->
  exists l, dispatch_from szw fuel tr (numbered ts) (Z.of_nat a) n = Some (l, numbered ts) /\
    length l = n /\
    forall i t v, (i < n)%nat -> nth_error ts (a + i) = Some t -> tr t = HasValue v ->
      nth_error l i = Some (AValue v).
Proof.
  clear HI. induction n as [|n IH]; intros ts a HL Hv; cbn [dispatch_from].
  - exists []. repeat split; auto. intros; lia.
  - unfold dispatch_one. rewrite type_of_numbered.
    destruct (nth_error ts a) as [t|] eqn:Et; [|apply nth_error_None in Et; lia].
    destruct (Hv a t) as (v & Ev); [lia|auto|]. rewrite Ev.
    replace (Z.of_nat a + 1) with (Z.of_nat (S a)) by lia.
    destruct (IH ts (S a)) as (l & E & El & Hl); [lia|intros i t' Hi; apply Hv; lia|].
    rewrite E. exists (AValue v :: l). repeat split; simpl; auto.
    intros [|i] t' v' Hi Ht Hv'; simpl.
    + rewrite Nat.add_0_r in Ht. congruence.
    + apply Hl with t'; auto; [lia|]. rewrite <- Ht. f_equal. lia.
Qed.

Lemma firstn_skipn_nth (ts : list cxx) a t : nth_error ts a = Some t -> skipn a ts = t :: skipn (S a) ts.
Proof.
  revert ts. induction a as [|a IH]; intros [|u ts] H; simpl in *; try discriminate; [congruence|].
  apply IH. auto.
Qed.

Lemma dispatch_types n : forall ts a, NoDup ts -> (length ts <= 1025)%nat -> (a + n <= length ts)%nat ->
  (forall i t, (a <= i < a + n)%nat -> nth_error ts i = Some t -> to_type tr t) ->
  let ts' := fold_left mention (images tr (firstn n (skipn a ts))) ts in
  if (length ts' <=? 1025)%nat then
    exists l, dispatch_from szw fuel tr (numbered ts) (Z.of_nat a) n = Some (l, numbered ts') /\
      length l = n /\
      forall i t u, (i < n)%nat -> nth_error ts (a + i) = Some t -> tr t = HasType u ->
        exists j, nth_error l i = Some (AnId (Z.of_nat j)) /\ nth_error ts' j = Some u
  else dispatch_from szw fuel tr (numbered ts) (Z.of_nat a) n = None.
Proof.
  induction n as [|n IH]; intros ts a Hd Hm HL Hv; cbn [dispatch_from].
  - simpl. destruct (Nat.leb_spec (length ts) 1025); [|lia].
    exists []. repeat split; auto. intros; lia.
  - unfold dispatch_one. rewrite type_of_numbered.
    destruct (nth_error ts a) as [t|] eqn:Et; [|apply nth_error_None in Et; lia].
    destruct (Hv a t) as (u & Eu); [lia|auto|]. rewrite Eu.
    rewrite (firstn_skipn_nth _ _ _ Et). cbn [firstn]. unfold images. cbn [flat_map]. rewrite Eu.
    cbn [app fold_left]. fold (images tr (firstn n (skipn (S a) ts))).
    pose proof (HI ts u Hd Hm) as HI'. destruct (mention_ext ts u) as (m1 & E1).
    destruct (mentions_ext (images tr (firstn n (skipn (S a) ts))) (mention ts u)) as (m2 & E2).
    destruct (Nat.leb_spec (length (mention ts u)) 1025) as [L1|L1].
    + destruct HI' as (j & Hj & ->). replace (Z.of_nat a + 1) with (Z.of_nat (S a)) by lia.
      assert (firstn n (skipn (S a) (mention ts u)) = firstn n (skipn (S a) ts)) as EF.
      { rewrite E1, skipn_app, firstn_app.
        replace (n - length (skipn (S a) ts))%nat with 0%nat by (rewrite skipn_length; lia).
        simpl (firstn 0 _). apply app_nil_r. }
      specialize (IH (mention ts u) (S a) (mention_nodup ts u Hd) L1).
      rewrite EF in IH. cbv zeta in IH |- *.
      assert (S a + n <= length (mention ts u))%nat as HL' by (rewrite E1, app_length; lia).
      assert (forall i t, (a < i < S a + n)%nat -> nth_error (mention ts u) i = Some t ->
               nth_error ts i = Some t) as HN.
      { intros i t' Hi Ht. rewrite E1 in Ht. rewrite nth_error_app1 in Ht by lia. auto. }
      specialize (IH HL' ltac:(intros i t' Hi Ht; apply (Hv i); [lia|apply HN; auto; lia])).
      destruct (Nat.leb_spec (length (fold_left mention (images tr (firstn n (skipn (S a) ts))) (mention ts u))) 1025).
      * destruct IH as (l & -> & El & Hl). exists (AnId (Z.of_nat j) :: l).
        split; [reflexivity|]. split; [cbn [length]; lia|]. intros [|i] t' u' Hi Ht Hu; cbn [nth_error].
        -- rewrite Nat.add_0_r in Ht. exists j. split; auto. rewrite E2. apply nth_ext.
           replace u' with u by congruence. auto.
        -- apply Hl with t'; auto; [lia|]. rewrite E1. apply nth_ext. rewrite <- Ht. f_equal. lia.
      * rewrite IH. auto.
    + rewrite HI'. rewrite E2, app_length.
      destruct (Nat.leb_spec (length (mention ts u) + length m2) 1025); [lia|]. auto.
Qed.

(** A table is built only for traits with a member for every registered type. *)
Lemma dispatch_kinds n : forall ts a l R, NoDup ts -> (length ts <= 1025)%nat -> (a + n <= length ts)%nat ->
  dispatch_from szw fuel tr (numbered ts) (Z.of_nat a) n = Some (l, R) ->
  length l = n /\ forall i t, (i < n)%nat -> nth_error ts (a + i) = Some t ->
    (exists v, tr t = HasValue v /\ nth_error l i = Some (AValue v)) \/
    (exists u j, tr t = HasType u /\ nth_error l i = Some (AnId j)).
Proof.
  induction n as [|n IH]; intros ts a l R Hd Hm HL H; cbn [dispatch_from] in H.
  - inversion H; subst. split; auto. intros; lia.
  - unfold dispatch_one in H. rewrite type_of_numbered in H.
    destruct (nth_error ts a) as [t|] eqn:Et; [|discriminate].
    replace (Z.of_nat a + 1) with (Z.of_nat (S a)) in H by lia.
    destruct (tr t) as [v|u|] eqn:Etr; [| |discriminate].
    + destruct (dispatch_from _ _ _ _ _ _) as [[l' R']|] eqn:E; [|discriminate].
      inversion H; subst. destruct (IH ts (S a) _ _ Hd Hm ltac:(lia) E) as (El & Hl).
      split; [simpl; auto|]. intros [|i] t' Hi Ht; simpl.
      * rewrite Nat.add_0_r in Ht. left. exists v. split; congruence.
      * apply Hl; [lia|]. rewrite <- Ht. f_equal. lia.
    + pose proof (HI ts u Hd Hm) as HI'. destruct (mention_ext ts u) as (m1 & E1).
      destruct (Nat.leb_spec (length (mention ts u)) 1025) as [L1|L1]; [|rewrite HI' in H; discriminate].
      destruct HI' as (j & Hj & E0). rewrite E0 in H.
      destruct (dispatch_from _ _ _ _ _ _) as [[l' R']|] eqn:E; [|discriminate].
      inversion H; subst.
      destruct (IH (mention ts u) (S a) _ _ (mention_nodup ts u Hd) L1
                  ltac:(rewrite E1, app_length; lia) E) as (El & Hl).
      split; [simpl; auto|]. intros [|i] t' Hi Ht; simpl.
      * rewrite Nat.add_0_r in Ht. right. exists u, (Z.of_nat j). split; congruence.
      * apply Hl; [lia|]. rewrite E1. apply nth_ext. rewrite <- Ht. f_equal. lia.
Qed.
End Dispatch.

Lemma one_type_spec a l : (forall b, In b l -> same_answer a b = true) -> l <> [] -> one_type l = true.
Proof.
  intros H Hl. destruct l as [|b l]; [congruence|]. simpl. apply forallb_forall. intros x Hx.
  pose proof (H b ltac:(simpl; auto)). pose proof (H x ltac:(simpl; auto)).
  destruct a, b, x; simpl in *; auto; discriminate.
Qed.

Lemma one_type_all l a b : one_type l = true -> In a l -> In b l -> same_answer a b = true.
Proof.
  destruct l as [|x l]; [discriminate|]. simpl. rewrite forallb_forall. intros H Ha Hb.
  assert (forall y, x = y \/ In y l -> same_answer x y = true) as H'.
  { intros y [<-|Hy]; auto. destruct x; auto. }
  pose proof (H' a Ha). pose proof (H' b Hb). destruct x, a, b; simpl in *; auto; discriminate.
Qed.

Lemma fresh_mention (ts : list cxx) f : ~ In f ts -> mention ts f = ts ++ [f].
Proof. exact (mention_out ts f). Qed.

Lemma nodup_snoc {A} (l : list A) (x : A) : NoDup l -> ~ In x l -> NoDup (l ++ [x]).
Proof.
  intros Hd Hn. apply NoDup_Add with (a := x) (l := l); auto.
  pose proof (Add_app x l []) as H. rewrite app_nil_r in H. exact H.
Qed.

Section Invoke.
Variable szw : nat.
Hypothesis Hs : (2 <= szw)%nat.

Lemma invoke_value : exists F, forall fuel tr ts fresh i t v, (F <= fuel)%nat ->
  NoDup ts -> ~ In fresh ts -> (length ts <= 1024)%nat ->
  (forall u, In u ts -> to_value tr u) -> nth_error ts i = Some t -> tr t = HasValue v ->
  invoke szw fuel tr (numbered ts) fresh (Z.of_nat i) = Some (AValue v, numbered (ts ++ [fresh])).
Proof.
  destruct (id_new szw Hs) as (F & HF). exists F. intros fuel tr ts fresh i t v Hfu Hd Hn HL Hall Hi Hv.
  unfold invoke. rewrite HF by auto. rewrite Nat2Z.id.
  assert (i < length ts)%nat as Hlt by (apply nth_error_Some; congruence).
  destruct (dispatch_values szw fuel tr (length ts) (ts ++ [fresh]) 0) as (l & E & El & Hl).
  - rewrite app_length. simpl. lia.
  - intros k u Hk Hu. rewrite nth_error_app1 in Hu by lia. apply Hall. eapply nth_error_In; eauto.
  - change (Z.of_nat 0) with 0 in E. rewrite E.
    assert (forall k, (k < length ts)%nat -> exists w, nth_error l k = Some (AValue w)) as Hk.
    { intros k Hk. destruct (nth_error ts k) as [u|] eqn:Eu; [|apply nth_error_None in Eu; lia].
      destruct (Hall u) as (w & Ew); [eapply nth_error_In; eauto|]. exists w.
      apply Hl with u; auto. simpl. apply nth_ext. auto. }
    rewrite (one_type_spec (AValue 0)).
    2: { intros b Hb. destruct (In_nth_error _ _ Hb) as (k & Ek).
         destruct (Hk k) as (w & Ew). { rewrite <- El. apply nth_error_Some. congruence. }
         assert (b = AValue w) as -> by congruence. auto. }
    2: { intros ->. simpl in El. lia. }
    destruct (Z.leb_spec 0 (Z.of_nat i)); [|lia]. cbn [andb]. rewrite Nat2Z.id.
    rewrite (Hl i t v); auto. simpl. apply nth_ext. auto.
Qed.

Lemma firstn_snoc (ts : list cxx) f : firstn (length ts) (ts ++ [f]) = ts.
Proof. rewrite firstn_app, Nat.sub_diag, firstn_all. simpl. apply app_nil_r. Qed.

Lemma invoke_type : exists F, forall fuel tr ts fresh i t u, (F <= fuel)%nat ->
  NoDup ts -> ~ In fresh ts -> (length ts <= 1024)%nat ->
  (forall u, In u ts -> to_type tr u) -> nth_error ts i = Some t -> tr t = HasType u ->
  let ts' := fold_left mention (images tr ts) (ts ++ [fresh]) in
  ((length ts' <= 1025)%nat -> exists j, nth_error ts' j = Some u /\
     invoke szw fuel tr (numbered ts) fresh (Z.of_nat i) = Some (AnId (Z.of_nat j), numbered ts')) /\
  ((1025 < length ts')%nat -> invoke szw fuel tr (numbered ts) fresh (Z.of_nat i) = None).
Proof.
  destruct (id_new szw Hs) as (F1 & HF). destruct (id_mention szw Hs) as (F2 & HI).
  exists (Nat.max F1 F2). intros fuel tr ts fresh i t u Hfu Hd Hn HL Hall Hi Hu ts'.
  unfold invoke. rewrite HF by (auto; lia). rewrite Nat2Z.id.
  assert (i < length ts)%nat as Hlt by (apply nth_error_Some; congruence).
  pose proof (dispatch_types szw fuel tr (fun ts0 t0 => HI fuel ts0 t0 ltac:(lia))
    (length ts) (ts ++ [fresh]) 0 (nodup_snoc _ _ Hd Hn)
    ltac:(rewrite app_length; simpl; lia) ltac:(rewrite app_length; simpl; lia)) as HD.
  cbn [skipn] in HD. rewrite firstn_snoc in HD. fold ts' in HD. cbv zeta in HD.
  specialize (HD ltac:(intros k w Hk Hw; rewrite nth_error_app1 in Hw by lia; apply Hall;
                       eapply nth_error_In; eauto)).
  change (Z.of_nat 0) with 0 in HD.
  destruct (Nat.leb_spec (length ts') 1025) as [L|L]; split; intros L'; try lia.
  - destruct HD as (l & -> & El & Hl).
    assert (forall k, (k < length ts)%nat -> exists w, nth_error l k = Some (AnId w)) as Hk.
    { intros k Hk. destruct (nth_error ts k) as [w|] eqn:Ew; [|apply nth_error_None in Ew; lia].
      destruct (Hall w) as (x & Ex); [eapply nth_error_In; eauto|].
      destruct (Hl k w x) as (j & Hj & _); auto; [simpl; apply nth_ext; auto|eauto]. }
    rewrite (one_type_spec (AnId 0)).
    2: { intros b Hb. destruct (In_nth_error _ _ Hb) as (k & Ek).
         destruct (Hk k) as (w & Ew). { rewrite <- El. apply nth_error_Some. congruence. }
         assert (b = AnId w) as -> by congruence. auto. }
    2: { intros ->. simpl in El. lia. }
    destruct (Z.leb_spec 0 (Z.of_nat i)); [|lia]. cbn [andb]. rewrite Nat2Z.id.
    destruct (Hl i t u) as (j & -> & Hj); auto; [simpl; apply nth_ext; auto|]. exists j. auto.
  - rewrite HD. auto.
Qed.

(** Otherwise nothing comes out, whichever type is asked about. *)
Lemma invoke_only : exists F, forall fuel tr ts fresh i a R, (F <= fuel)%nat ->
  NoDup ts -> ~ In fresh ts ->
  invoke szw fuel tr (numbered ts) fresh i = Some (a, R) ->
  (exists k t, i = Z.of_nat k /\ nth_error ts k = Some t) /\
  ((forall u, In u ts -> to_value tr u) \/ (forall u, In u ts -> to_type tr u)).
Proof.
  destruct (id_new szw Hs) as (F1 & HF). destruct (id_mention szw Hs) as (F2 & HI).
  exists (Nat.max 1024 (Nat.max F1 F2)). intros fuel tr ts fresh i a R Hfu Hd Hn H. unfold invoke in H.
  destruct (Nat.le_gt_cases 1025 (length ts)) as [HL|HL].
  { rewrite id_none in H by (auto; lia). discriminate. }
  rewrite HF in H by (auto; lia). rewrite Nat2Z.id in H.
  destruct (dispatch_from _ _ _ _ _ _) as [[l R']|] eqn:E; [|discriminate].
  change 0 with (Z.of_nat 0) in E.
  destruct (dispatch_kinds szw fuel tr (fun ts0 t0 => HI fuel ts0 t0 ltac:(lia))
    (length ts) (ts ++ [fresh]) 0 l R' (nodup_snoc _ _ Hd Hn)
    ltac:(rewrite app_length; simpl; lia) ltac:(rewrite app_length; simpl; lia) E) as (El & Hl).
  destruct (one_type l) eqn:Eo; [|discriminate]. destruct (Z.leb_spec 0 i); [|discriminate].
  cbn [andb] in H. destruct (nth_error l (Z.to_nat i)) as [b|] eqn:Eb; [|discriminate].
  assert (Z.to_nat i < length ts)%nat as Hlt by (rewrite <- El; apply nth_error_Some; congruence).
  assert (forall k t, nth_error ts k = Some t ->
    (exists v, tr t = HasValue v /\ nth_error l k = Some (AValue v)) \/
    (exists u j, tr t = HasType u /\ nth_error l k = Some (AnId j))) as Hk.
  { intros k t Hk. apply Hl; [apply nth_error_Some; congruence|]. simpl. apply nth_ext. auto. }
  split.
  - destruct (nth_error ts (Z.to_nat i)) as [t|] eqn:Et; [|apply nth_error_None in Et; lia].
    exists (Z.to_nat i), t. split; auto. lia.
  - destruct b as [v|j]; [left|right]; intros u Hu; destruct (In_nth_error _ _ Hu) as (k & Ek);
      destruct (Hk k u Ek) as [(w & Ew & Ei)|(w & j' & Ew & Ei)];
      try (eexists; eassumption); exfalso;
      pose proof (one_type_all l _ _ Eo (nth_error_In _ _ Eb) (nth_error_In _ _ Ei)); discriminate.
Qed.

(** A closure type that is not new: types with later ids are not in the table. *)
Lemma invoke_stale : forall fuel tr ts n T i, NoDup ts -> nth_error ts n = Some T -> (n <= i)%nat ->
  invoke szw fuel tr (numbered ts) T (Z.of_nat i) = None.
Proof.
  clear Hs. intros fuel tr ts n T i Hd HT Hi. unfold invoke. rewrite (id_known szw fuel ts n T Hd HT), Nat2Z.id.
  destruct (dispatch_from _ _ _ _ _ _) as [[l R']|] eqn:E; auto.
  assert (forall n R a l R', dispatch_from szw fuel tr R a n = Some (l, R') -> length l = n) as HLen.
  { clear. induction n as [|n IH]; intros R a l R' H; simpl in H; [inversion H; auto|].
    destruct (dispatch_one _ _ _ _ _) as [[b R1]|]; [|discriminate].
    destruct (dispatch_from _ _ _ _ _ _) as [[l1 R2]|] eqn:E; [|discriminate].
    inversion H; subst. simpl. f_equal. eauto. }
  apply HLen in E. destruct (one_type l && _); auto. rewrite Nat2Z.id.
  destruct (nth_error l i) eqn:En; auto.
  assert (i < length l)%nat by (apply nth_error_Some; congruence). lia.
Qed.
End Invoke.

(** ** static_array *)
Lemma set_app {A} (p r : list A) x y : set_at (p ++ y :: r) (length p) x = p ++ x :: r.
Proof. induction p; simpl; auto. f_equal. auto. Qed.

Lemma fill_app {A} (es : list A) : forall p r, length r = length es -> fill_from (p ++ r) (length p) es = p ++ es.
Proof.
  induction es as [|x es IH]; intros p [|y r] H; simpl in *; try discriminate; auto.
  rewrite set_app. replace (S (length p)) with (length (p ++ [x])) by (rewrite app_length; simpl; lia).
  replace (p ++ x :: r) with ((p ++ [x]) ++ r) by (rewrite <- app_assoc; auto).
  rewrite IH by lia. rewrite <- app_assoc. auto.
Qed.

Lemma array_made {A} (zero : A) N es l :
  make_array zero N es = Some l <-> l = es /\ length es = N /\ (0 < N)%nat.
Proof.
  unfold make_array. destruct (Nat.eqb_spec N 0) as [->|H0]; simpl.
  { split; [discriminate|intros (_ & _ & H); lia]. }
  destruct (Nat.eqb_spec (length es) N) as [E|E].
  - pose proof (fill_app es [] (repeat zero N)) as HF. simpl in HF. rewrite HF by (rewrite repeat_length; auto).
    split; [intros H; inversion H; subst; repeat split; auto; lia|intros (-> & _ & _); auto].
  - split; [discriminate|intros (_ & H & _); lia].
Qed.

Lemma walk_skip {A} (l : list A) n : forall a, (a + n <= length l)%nat ->
  array_walk l a n = Some (firstn n (skipn a l)).
Proof.
  induction n as [|n IH]; intros a H; simpl; auto. unfold array_at.
  destruct (nth_error l a) as [x|] eqn:E; [|apply nth_error_None in E; lia].
  rewrite IH by lia. f_equal. clear IH. revert l E H. induction a as [|a IH]; intros [|y l] E H; simpl in *; try discriminate.
  - inversion E; auto.
  - apply IH; auto; lia.
Qed.

Lemma array_walked {A} (l : list A) : array_walk l 0 (array_size (length l)) = Some l.
Proof. rewrite walk_skip by (unfold array_size; lia). simpl. unfold array_size. rewrite firstn_all. auto. Qed.
