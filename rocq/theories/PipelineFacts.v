(** * The reader statement by statement: proofs *)
From Coq Require Import ZifyBool ZifyNat Lia.
From Verif Require Import Pipeline BytesFacts ProgFacts ReadFacts ReadMore Safety Typing CallFacts.
Import ListNotations.
Local Open Scope Z_scope.

(** ** Objects *)

Lemma chunks_each w n : forall l x, In x (chunks w n l) -> length l = (n * w)%nat -> length x = w.
Proof.
  induction n; intros l x Hin Hl; simpl in *; [tauto|]. destruct Hin as [<-|Hin].
  - rewrite firstn_length. lia.
  - apply (IHn (skipn w l)); auto. rewrite skipn_length. lia.
Qed.

Lemma concat_map_chunks (f : list Z -> list Z) w n : (forall m, length m = w -> length (f m) = w) ->
  forall l, length l = (n * w)%nat ->
  chunks w n (concat (map f (chunks w n l))) = map f (chunks w n l).
Proof.
  intros Hf l Hl. apply chunks_concat.
  - rewrite map_length. apply chunks_length.
  - apply Forall_forall. intros x Hx. apply in_map_iff in Hx. destruct Hx as (y & <- & Hy).
    apply Hf. eapply chunks_each; eauto.
Qed.

Lemma concat_each {A} w : forall (l : list (list A)), Forall (fun x => length x = w) l ->
  length (concat l) = (length l * w)%nat.
Proof.
  induction 1; simpl; auto. rewrite app_length. lia.
Qed.

Definition elem_swap (t : ctype) (elem : list Z) : list Z :=
  match t with
  | TScalar _ | TFloat _ => if Nat.ltb 1 (csize t) then rev elem else elem
  | _ => byteswap_elements t elem
  end.

Lemma elem_swap_eq t m : length m = csize t -> elem_swap t m = swapped t m.
Proof.
  intros H. destruct t; simpl; auto.
  - destruct (Nat.ltb_spec 1 (ssize s)); auto. simpl in H. rewrite rev_short; auto. lia.
  - destruct (Nat.ltb_spec 1 w); auto. simpl in H. rewrite rev_short; auto. lia.
Qed.

Lemma byteswap_arr n t m : byteswap_elements (TArr n t) m = concat (map (elem_swap t) (chunks (csize t) n m)).
Proof. reflexivity. Qed.

Lemma swapped_length t : forall m, length m = csize t -> length (swapped t m) = csize t.
Proof.
  induction t; intros m H; simpl in *; auto; try (rewrite rev_length; auto).
  fold (elem_swap t).
  rewrite (concat_each (csize t)).
  - rewrite map_length, chunks_length. auto.
  - apply Forall_forall. intros x Hx. apply in_map_iff in Hx. destruct Hx as (y & <- & Hy).
    eapply chunks_each in Hy; eauto. change (length (elem_swap t y) = csize t).
    rewrite elem_swap_eq; auto.
Qed.

Lemma mem_dec_rev h m : mem_dec h (rev m) = mem_dec (other h) m.
Proof. destruct h; simpl; auto. rewrite rev_involutive. auto. Qed.

Lemma object_swapped h t : forall m, length m = csize t -> object h t (swapped t m) = object (other h) t m.
Proof.
  induction t; intros m Hl.
  - cbn [swapped object]. rewrite mem_dec_rev. reflexivity.
  - simpl csize in Hl. cbn [swapped object]. rewrite byteswap_arr, concat_map_chunks; auto.
    + rewrite map_map. erewrite map_ext_in; [reflexivity|]. intros x Hx.
      eapply chunks_each in Hx; eauto. cbv beta. rewrite elem_swap_eq by auto. apply IHt; auto.
    + intros y Hy. rewrite elem_swap_eq by auto. apply swapped_length; auto.
  - reflexivity.
  - cbn [swapped object]. rewrite mem_dec_rev. reflexivity.
Qed.

Lemma swapped_twice t : forall m, length m = csize t -> swapped t (swapped t m) = m.
Proof.
  induction t; intros m Hl; cbn [swapped].
  - apply rev_involutive.
  - simpl csize in Hl. rewrite !byteswap_arr, concat_map_chunks; auto.
    + rewrite map_map, map_ext_in with (g := fun x => x).
      * rewrite map_id. apply concat_chunks. auto.
      * intros x Hx. eapply chunks_each in Hx; eauto.
        rewrite elem_swap_eq with (m := x) by auto.
        rewrite elem_swap_eq by (apply swapped_length; auto). apply IHt; auto.
    + intros y Hy. rewrite elem_swap_eq by auto. apply swapped_length; auto.
  - reflexivity.
  - apply rev_involutive.
Qed.

Lemma load_bits_swap c m : Forall byte_ok m ->
  mem_dec (c_host c) (if is_host_order c then m else rev m) = load_bits c (length m) m.
Proof.
  intros H. unfold load_bits. destruct (is_host_order c); auto.
  destruct (Nat.ltb_spec 1 (length m)).
  - rewrite byteswap_mem_dec by auto. unfold mem_dec. destruct (c_host c); auto.
    rewrite rev_involutive. auto.
  - rewrite rev_short by lia. auto.
Qed.

Lemma arrived_load c t : forall m, length m = csize t -> Forall byte_ok m ->
  arrived c t m = load c t m.
Proof.
  unfold arrived. induction t; intros m Hl Hb.
  - simpl in *. rewrite <- Hl, <- load_bits_swap by auto. reflexivity.
  - simpl csize in Hl. cbn [object load].
    assert (E : map (object (c_host c) t)
                  (chunks (csize t) n (if is_host_order c then m else swapped (TArr n t) m)) =
                map (load c t) (chunks (csize t) n m)).
    { destruct (is_host_order c) eqn:Eo.
      - apply map_ext_in. intros x Hx. eapply chunks_In in Hx; eauto. apply IHt; tauto.
      - cbn [swapped]. rewrite byteswap_arr, concat_map_chunks; auto.
        + rewrite map_map. apply map_ext_in. intros x Hx. eapply chunks_In in Hx; eauto.
          rewrite elem_swap_eq by tauto. apply IHt; tauto.
        + intros y Hy. rewrite elem_swap_eq by auto. apply swapped_length; auto. }
    rewrite E. reflexivity.
  - simpl. destruct (is_host_order c); auto.
  - simpl in *. rewrite <- Hl, <- load_bits_swap by auto. reflexivity.
Qed.

Lemma poke_overlay w bs : poke (repeat 0 w) bs = overlay w bs.
Proof.
  unfold poke, overlay. f_equal. generalize (length bs). intros n. revert w.
  induction n; intros [|w]; simpl; auto.
Qed.

Lemma poke_all mem bs : length mem = length bs -> poke mem bs = bs.
Proof. intros H. unfold poke. rewrite <- H, skipn_all, app_nil_r. auto. Qed.

Lemma overlay_length w bs : (length bs <= w)%nat -> length (overlay w bs) = w.
Proof. intros H. unfold overlay. rewrite app_length, repeat_length. lia. Qed.

Lemma overlay_ok w bs : Forall byte_ok bs -> Forall byte_ok (overlay w bs).
Proof.
  intros H. apply Forall_app. split; auto. apply Forall_forall. intros x Hx.
  apply repeat_spec in Hx. subst. red. lia.
Qed.

(** ** Slots *)

Lemma set_nth_length {A} (v : A) : forall l i, length (set_nth i v l) = length l.
Proof. induction l; intros [|i]; simpl; auto. Qed.

Lemma set_nth_firstn {A} (v : A) : forall l i, (i < length l)%nat ->
  firstn (S i) (set_nth i v l) = firstn i l ++ [v].
Proof.
  induction l; intros i H; simpl in *; [lia|]. destruct i; simpl; auto.
  f_equal. apply IHl. lia.
Qed.

Lemma set_nth_skipn {A} (v : A) : forall l i, skipn (S i) (set_nth i v l) = skipn (S i) l.
Proof. induction l; intros [|i]; simpl; auto. apply IHl. Qed.

Lemma mk_env_set_nth id t k v : forall pre post slots, NoDup (f_ids (f_app pre (FCons id t k post))) ->
  mk_env (f_app pre (FCons id t k post)) (set_nth (f_len pre) v slots) =
  update (mk_env (f_app pre (FCons id t k post)) slots) id v.
Proof.
  induction pre; intros post slots H.
  - destruct slots; simpl; auto. rewrite String.eqb_refl. reflexivity.
  - destruct slots; simpl in *; auto. inversion H; subst.
    destruct (String.eqb_spec id0 id).
    + subst. exfalso. apply H2. rewrite f_ids_app. apply in_or_app. right. left. auto.
    + f_equal. apply IHpre. auto.
Qed.

Section Sim.
Variable S : istream.
Variable alloc : Z -> bool.
Hypothesis HS : delivers S.

Definition rel {E A X} (P : A -> Prop) (g : A -> X) (o : outcome E A) (d : done (result E X)) : Prop :=
  match o, d with
  | Ok a, Did (None, x) => x = g a /\ P a
  | Err e, Did (Some e', _) => e = e'
  | UB, DoesUB | Stuck, DoesNotCompile | Throw, Throws => True
  | _, _ => False
  end.

Definition sim {E A X} (P : A -> Prop) (g : A -> X) (p : rprog E A) (a : act (i_st S) event (result E X)) : Prop :=
  forall s, match rrun S alloc p s, a s with
            | (o, s1, ev1), (d, s2, ev2) => s1 = s2 /\ ev1 = ev2 /\ rel P g o d
            end.

Definition aeq {A} (a b : act (i_st S) event A) : Prop := forall s, a s = b s.

Lemma sim_aeq {E A X} P g (p : rprog E A) (a b : act (i_st S) event (result E X)) :
  aeq a b -> sim P g p b -> sim P g p a.
Proof. intros H Hs s. rewrite H. apply Hs. Qed.

Lemma abind_run {A B} (a : act (i_st S) event A) (f : A -> act (i_st S) event B) s : abind a f s =
  match a s with
  | (Did x, s1, ev1) => match f x s1 with (d, s2, ev2) => (d, s2, ev1 ++ ev2) end
  | (DoesUB, s1, ev1) => (DoesUB, s1, ev1)
  | (DoesNotCompile, s1, ev1) => (DoesNotCompile, s1, ev1)
  | (Throws, s1, ev1) => (Throws, s1, ev1)
  end.
Proof. reflexivity. Qed.

Lemma abind_ret {A B} (x : A) (f : A -> act (i_st S) event B) : aeq (abind (aret x) f) (f x).
Proof. intros s. unfold abind, aret. destruct (f x s) as [[d s'] ev]. reflexivity. Qed.

Lemma abind_assoc {A B C} (a : act (i_st S) event A) (f : A -> act (i_st S) event B) (h : B -> act (i_st S) event C) :
  aeq (abind (abind a f) h) (abind a (fun x => abind (f x) h)).
Proof.
  intros s. unfold abind. destruct (a s) as [[[x| | |] s1] ev1]; auto.
  destruct (f x s1) as [[[y| | |] s2] ev2]; auto.
  destruct (h y s2) as [[d s3] ev3]. rewrite app_assoc. auto.
Qed.

Lemma abind_ext {A B} (a : act (i_st S) event A) (f h : A -> act (i_st S) event B) : (forall x, aeq (f x) (h x)) ->
  aeq (abind a f) (abind a h).
Proof.
  intros H s. unfold abind. destruct (a s) as [[[x| | |] s1] ev1]; auto. rewrite H. auto.
Qed.

Lemma sim_ret {E A X} (P : A -> Prop) (g : A -> X) a x : x = g a -> P a ->
  sim (E := E) P g (RRet a) (aret (None, x)).
Proof. intros -> HP s. simpl. auto. Qed.

Lemma sim_err {E A X} (P : A -> Prop) (g : A -> X) (e : E) x : sim P g (RErr e) (aret (Some e, x)).
Proof. intros s. simpl. auto. Qed.

Lemma sim_weak {E A X} (P Q : A -> Prop) (g : A -> X) (p : rprog E A) a :
  (forall x, P x -> Q x) -> sim P g p a -> sim Q g p a.
Proof.
  intros H Hs s. specialize (Hs s). destruct (rrun S alloc p s) as [[o s1] ev1].
  destruct (a s) as [[d s2] ev2]. destruct Hs as (? & ? & Hr). split; [|split]; auto.
  destruct o, d as [[[?|] ?]| | |]; simpl in *; auto. destruct Hr; auto.
Qed.

Lemma sim_bind {E A B X Y} (P : A -> Prop) (Q : B -> Prop) (g : A -> X) (h : B -> Y)
  (p : rprog E A) (a : act (i_st S) event (result E X)) (f : A -> rprog E B) (k : result E X -> act (i_st S) event (result E Y)) :
  sim P g p a -> (forall e x, exists y, aeq (k (Some e, x)) (aret (Some e, y))) ->
  (forall v, P v -> sim Q h (f v) (k (None, g v))) ->
  sim Q h (rbind p f) (abind a k).
Proof.
  intros Hp He Hf s. specialize (Hp s). rewrite rrun_bind. unfold abind.
  destruct (rrun S alloc p s) as [[o s1] ev1]. destruct (a s) as [[d s2] ev2].
  destruct Hp as (-> & -> & Hr).
  destruct o, d as [[[e'|] x]| | |]; cbn [rel] in Hr; try tauto.
  - destruct Hr as [-> Hv]. specialize (Hf _ Hv s2).
    destruct (rrun S alloc (f a0) s2) as [[o s3] ev3].
    destruct (k (None, g a0) s2) as [[d s4] ev4]. destruct Hf as (-> & -> & Hr). auto.
  - subst e'. destruct (He e x) as [y Hy]. rewrite Hy. unfold aret. rewrite app_nil_r. simpl. auto.
Qed.

Lemma sim_map {E E' A X Y} (P : A -> Prop) (g : A -> X) (h : A -> Y) (m : E -> E')
  (p : rprog E A) (a : act (i_st S) event (result E X)) (k : result E X -> act (i_st S) event (result E' Y)) :
  sim P g p a -> (forall e x, exists y, k (Some e, x) = aret (Some (m e), y)) ->
  (forall v, k (None, g v) = aret (None, h v)) ->
  sim P h (rmaperr m p) (abind a k).
Proof.
  intros Hp He Hf s. specialize (Hp s). rewrite rrun_maperr. unfold abind.
  destruct (rrun S alloc p s) as [[o s1] ev1]. destruct (a s) as [[d s2] ev2].
  destruct Hp as (-> & -> & Hr).
  destruct o, d as [[[e'|] x]| | |]; cbn [rel] in Hr; try tauto.
  - destruct Hr as [-> Hv]. rewrite Hf. unfold aret. rewrite app_nil_r. simpl. auto.
  - subst e'. destruct (He e x) as [y ->]. unfold aret. rewrite app_nil_r. simpl. auto.
Qed.

Lemma sim_read {E A X} (P : A -> Prop) (g : A -> X) n (e : E) (f : list Z -> rprog E A)
  (k : option (list Z) -> act (i_st S) event (result E X)) :
  (exists y, k None = aret (Some e, y)) ->
  (forall bs, length bs = Z.to_nat n -> Forall byte_ok bs -> sim P g (f bs) (k (Some bs))) ->
  sim P g (RRead n e f) (abind (aread S n) k).
Proof.
  intros [y Hy] Hf s. simpl. unfold abind, aread. destruct (i_read S s n) as [[bs|] s1] eqn:E1.
  - destruct (HS _ _ _ _ E1) as [H1 H2]. specialize (Hf bs H1 H2 s1).
    destruct (rrun S alloc (f bs) s1) as [[o s2] ev2]. destruct (k (Some bs) s1) as [[d s3] ev3].
    destruct Hf as (-> & -> & Hr). auto.
  - rewrite Hy. simpl. auto.
Qed.

Lemma sim_alloc {E A X} (P : A -> Prop) (g : A -> X) n (p : rprog E A) (k : unit -> act (i_st S) event (result E X)) :
  sim P g p (k tt) -> sim P g (RAlloc n p) (abind (aalloc S alloc n) k).
Proof.
  intros H s. simpl. unfold abind, aalloc. destruct (alloc n); simpl; auto.
  specialize (H s). destruct (rrun S alloc p s) as [[o s1] ev1]. destruct (k tt s) as [[d s2] ev2].
  destruct H as (-> & -> & Hr). auto.
Qed.

Lemma skipn_cons {A} : forall i (x : list A) d l, skipn i x = d :: l ->
  (i < length x)%nat /\ nth i x d = d /\ skipn (Datatypes.S i) x = l.
Proof.
  induction i; intros [|a x] d l H; simpl in *; try discriminate.
  - inversion H; subst. split; [lia|auto].
  - apply IHi in H. destruct H as (H1 & H2 & H3). split; [lia|auto].
Qed.

Lemma sim_for {E A B} (P : A -> Prop) (g : A -> B) (d : B) (p : rprog E A)
  (body : nat -> list B -> act (i_st S) event (result E (list B))) :
  (forall j x l, skipn j x = d :: l -> sim P (fun a => set_nth j (g a) x) p (body j x)) ->
  forall n i x, skipn i x = repeat d n ->
  sim (fun l => Forall P l /\ length l = n) (fun l => firstn i x ++ map g l)
      (rrep n p) (for_loop n i body x).
Proof.
  intros Hb. induction n; intros i x H.
  - simpl. apply sim_ret; auto. rewrite app_nil_r. rewrite <- (firstn_skipn i x) at 1.
    rewrite H. simpl. apply app_nil_r.
  - cbn [rrep for_loop]. simpl in H. eapply sim_bind.
    + eapply Hb. eauto.
    + intros e y. eexists. intros s. reflexivity.
    + intros v Hv. cbv beta iota. destruct (skipn_cons _ _ _ _ H) as (H1 & _ & H2).
      assert (H3 : skipn (Datatypes.S i) (set_nth i (g v) x) = repeat d n) by (rewrite set_nth_skipn; auto).
      specialize (IHn _ _ H3).
      intros s. specialize (IHn s). rewrite rrun_bind.
      destruct (rrun S alloc (rrep n p) s) as [[o s1] ev1].
      destruct (for_loop n (Datatypes.S i) body (set_nth i (g v) x) s) as [[dd s2] ev2].
      destruct IHn as (-> & -> & Hr). destruct o, dd as [[[e'|] y]| | |]; cbn [rel] in Hr; try tauto;
        simpl; rewrite ?app_nil_r; auto.
      destruct Hr as (-> & Hr1 & Hr2). split; [|split]; auto. split.
      * rewrite set_nth_firstn by auto. rewrite <- app_assoc. reflexivity.
      * split; [constructor; auto|simpl; lia].
Qed.

Variable c : cfg.
Definition top {A} (_ : A) := True.

Lemma sim_object t m : length m = csize t -> Forall byte_ok m ->
  sim (E := reason) top (fun v => v) (match load c t m with Some v => RRet v | None => RUB end)
      (as_object S c t m).
Proof.
  intros H1 H2. unfold as_object. rewrite arrived_load by auto. destruct (load c t m).
  - apply sim_ret; unfold top; auto.
  - intros s. simpl. auto.
Qed.

Lemma sim_fixed t n cur : sim top (fun v => v) (read_fixed c t n) (l_fixed S c t n cur).
Proof.
  unfold read_fixed, l_fixed. destruct (Nat.ltb_spec (csize t) n).
  - intros s. simpl. auto.
  - unfold read_native_impl. eapply sim_aeq; [apply abind_assoc|].
    apply sim_read.
    + eexists. unfold abind, aret. reflexivity.
    + intros bs H1 H2. eapply sim_aeq; [apply abind_ret|]. rewrite poke_overlay.
      rewrite Nat2Z.id in H1. apply sim_object.
      * apply overlay_length. lia.
      * apply overlay_ok. auto.
Qed.

(** ** Containers *)

Lemma sim_container esz len : 0 <= len -> to_size c (len * Z.of_nat esz) = len * Z.of_nat esz ->
  sim (fun mem => length mem = (Z.to_nat len * esz)%nat /\ Forall byte_ok mem)
      (fun mem => chunks esz (Z.to_nat len) mem)
      (read_raw c (Z.of_nat esz) len) (l_container S c esz len).
Proof.
  intros Hl Hs. unfold read_raw, l_container. destruct (c_cx c).
  - intros s.
    assert (H : sim (fun l => Forall (fun bs => length bs = esz /\ Forall byte_ok bs) l /\
                              length l = Z.to_nat len)
                    (fun l => firstn 0 (repeat (repeat 0 esz) (Z.to_nat len)) ++ map (fun b => b) l)
                    (rrep (Z.to_nat len) (RRead (Z.of_nat esz) BufferExhaustion (fun bs => RRet bs)))
                    (for_loop (Z.to_nat len) 0 (fun i obj =>
                       abind (read_native_impl S (nth i obj []) (Z.of_nat esz)) (fun r =>
                         match r with
                         | (Some e, _) => aret (Some e, obj)
                         | (None, mem) => aret (None, set_nth i mem obj)
                         end)) (repeat (repeat 0 esz) (Z.to_nat len)))).
    { apply (sim_for (fun bs => length bs = esz /\ Forall byte_ok bs) (fun b => b) (repeat 0 esz)).
      - intros j x l Hx. unfold read_native_impl. eapply sim_aeq; [apply abind_assoc|].
        apply sim_read.
        + eexists. unfold abind, aret. reflexivity.
        + intros bs H1 H2. eapply sim_aeq; [apply abind_ret|]. rewrite Nat2Z.id in H1.
          apply sim_ret; auto. f_equal. apply skipn_cons in Hx. destruct Hx as (Hx1 & Hx2 & _).
          rewrite (nth_indep _ [] (repeat 0 esz)), Hx2 by auto.
          apply poke_all. rewrite repeat_length. auto.
      - reflexivity. }
    specialize (H s). rewrite rrun_bind. cbn [rrun].
    destruct (rrun S alloc (rrep (Z.to_nat len) _) s) as [[o s1] ev1].
    destruct (for_loop _ _ _ _ s) as [[d s2] ev2]. destruct H as (-> & -> & Hr).
    destruct o, d as [[[e'|] x]| | |]; cbn [rel] in Hr; try tauto; simpl; rewrite ?app_nil_r; auto.
    destruct Hr as (-> & Hr1 & Hr2). rewrite map_id.
    assert (F : Forall (fun ch : list Z => length ch = esz) a).
    { eapply Forall_impl; [|apply Hr1]. simpl. tauto. }
    split; [|split; [|split; [|split]]]; auto.
    + rewrite chunks_concat; auto.
    + rewrite (concat_each esz) by auto. lia.
    + apply Forall_concat. eapply Forall_impl; [|apply Hr1]. simpl. tauto.
  - unfold read_native_impl. eapply sim_aeq; [apply abind_assoc|].
    apply sim_read.
    + eexists. unfold abind, aret. reflexivity.
    + intros bs H1 H2. eapply sim_aeq; [apply abind_ret|]. rewrite Hs in H1.
      assert (H3 : length bs = (Z.to_nat len * esz)%nat).
      { rewrite H1, Z2Nat.inj_mul, Nat2Z.id by lia. auto. }
      apply sim_ret; auto. rewrite poke_all; auto.
      rewrite (concat_each esz), repeat_length; auto.
      apply Forall_forall. intros x Hx. apply repeat_spec in Hx. subst. apply repeat_length.
Qed.

Lemma sim_var elt len b cur : 0 <= len ->
  sim top (fun v => v) (read_var c elt len b) (l_var S alloc c elt len b cur).
Proof.
  intros Hl. unfold read_var, l_var.
  destruct (len_allowed (ceiling c b) (Z.of_nat (csize elt)) len) eqn:Ea.
  2: { unfold len_allowed in Ea. apply negb_false_iff in Ea. rewrite Ea. apply sim_err. }
  pose proof Ea as Eb. unfold len_allowed in Eb. apply negb_true_iff in Eb. rewrite Eb.
  apply sim_alloc. eapply sim_bind.
  - apply sim_container; auto.
    apply (allowed_product c b); auto. lia.
  - intros e x. eexists. intros s. reflexivity.
  - intros mem [H1 H2]. cbv beta iota.
    replace (map (object (c_host c) elt)
              (if is_host_order c then chunks (csize elt) (Z.to_nat len) mem
               else map _ (chunks (csize elt) (Z.to_nat len) mem)))
      with (map (load c elt) (chunks (csize elt) (Z.to_nat len) mem)).
    + destruct (sequence _).
      * apply sim_ret; unfold top; auto.
      * intros s. simpl. auto.
    + pose proof (arrived_load c elt) as L. unfold arrived in L.
      destruct (is_host_order c); [|rewrite map_map]; apply map_ext_in; intros x Hx;
        eapply chunks_In in Hx; eauto; destruct Hx as [Hx1 Hx2].
      * rewrite <- L; auto.
      * fold (elem_swap elt x). rewrite elem_swap_eq, <- L; auto.
Qed.

Lemma sim_check k v {X} (h : val -> X) (ko : X) :
  sim (E := reason) top h (rcheck k v)
      (checked k v (fun ok => if negb ok then aret (Some ValidationFailure, ko)
                                else aret (None, h v))).
Proof.
  unfold rcheck, checked. destruct (check k v); simpl.
  - apply sim_ret; unfold top; auto.
  - apply sim_err.
  - intros s. simpl. auto.
  - intros s. simpl. auto.
Qed.

(** ** Records *)

Lemma sim_records fs n (fold : act (i_st S) event (result (reason * ident) (list val))) :
  sim top (fun vs => vs) (read_fields c (mk_env fs (default_fields fs)) fs) fold ->
  sim top (fun l => l)
    (rrep n (rbind (rmaperr fst (read_fields c (mk_env fs (default_fields fs)) fs))
                   (fun vs => RRet (VRec vs))))
    (read_buffer_of_records S
       (abind fold (fun res =>
          match res with
          | (Some err, _) => aret (Some (fst err), VRec (default_fields fs))
          | (None, field_list) => aret (None, VRec field_list)
          end)) n (repeat (VRec (default_fields fs)) n)).
Proof.
  intros H. unfold read_buffer_of_records.
  assert (G : forall P : list val -> Prop, (forall l, P l) ->
    sim P (fun l => firstn 0 (repeat (VRec (default_fields fs)) n) ++ map (fun v : val => v) l)
    (rrep n (rbind (rmaperr fst (read_fields c (mk_env fs (default_fields fs)) fs))
                   (fun vs => RRet (VRec vs))))
    (for_loop n 0 (fun count value =>
       abind (abind fold (fun res =>
          match res with
          | (Some err, _) => aret (Some (fst err), VRec (default_fields fs))
          | (None, field_list) => aret (None, VRec field_list)
          end)) (fun r =>
         match r with
         | (Some e, _) => aret (Some e, value)
         | (None, v) => aret (None, set_nth count v value)
         end)) (repeat (VRec (default_fields fs)) n))).
  { intros P HP. eapply sim_weak; [intros; apply HP|].
    apply (sim_for top (fun v => v) (VRec (default_fields fs))).
    - intros j x l _. eapply sim_aeq.
      + apply abind_assoc.
      + eapply sim_aeq.
        * apply abind_ext with (h := fun res => match res with
            | (Some err, _) => aret (Some (fst err), x)
            | (None, field_list) => aret (None, set_nth j (VRec field_list) x) end).
          intros [[err|] y] s; reflexivity.
        * clear HP. intros s. specialize (H s). rewrite rrun_bind, rrun_maperr, abind_run.
          destruct (rrun S alloc _ s) as [[o s1] ev1]. destruct (fold s) as [[d s2] ev2].
          destruct H as (-> & -> & Hr).
          destruct o, d as [[[e'|] y]| | |]; cbn [rel] in Hr; try tauto; simpl; rewrite ?app_nil_r; auto.
          -- destruct Hr as [-> _]. unfold top. auto.
          -- subst. auto.
    - reflexivity. }
  eapply sim_weak; [|intros s; specialize (G top (fun _ => I) s)].
  - intros x Hx. exact Hx.
  - simpl in G. destruct (rrun S alloc _ s) as [[o s1] ev1]. destruct (for_loop _ _ _ _ s) as [[d s2] ev2].
    destruct G as (-> & -> & Hr). split; [|split]; auto.
    destruct o, d as [[[e'|] x]| | |]; simpl in *; auto. rewrite map_id in Hr. auto.
Qed.

(** ** Guides *)

Lemma ladder_below e : forall brs i, eval_ladder e brs = Some (Some i) -> (i < length brs)%nat.
Proof.
  induction brs as [|[p ids] brs IH]; simpl; intros i H; try discriminate.
  destruct (lookups e ids); try discriminate. destruct (p l).
  - inversion H; lia.
  - destruct (eval_ladder e brs) as [[j|]|]; inversion H; subst. specialize (IH _ eq_refl). lia.
Qed.

Lemma deduced_below G e g n i : guide_typed G g n = true -> deduce_type e g = Some (Some i) -> (i < n)%nat.
Proof.
  destruct g; simpl; intros Ht Hd.
  - destruct (tlookup G id) as [[[s'| | |]| | | | | |]|]; try discriminate.
    apply andb_true_iff in Ht. destruct Ht as [_ Ht]. apply Nat.eqb_eq in Ht.
    destruct (lookup e id) as [[]|]; inversion Hd as [Hd']. apply first_true_lt in Hd'.
    rewrite map_length in Hd'. lia.
  - apply Nat.eqb_eq in Ht. destruct (lookups e ids); inversion Hd as [Hd']. apply first_true_lt in Hd'.
    rewrite map_length in Hd'. lia.
  - apply Nat.eqb_eq in Ht. apply ladder_below in Hd. lia.
Qed.

(** ** Unfolding *)

Lemma l_FFixed e cur t' n : l_ty S alloc c e (FFixed t' n) cur =
  l_fixed S c t' n cur.
Proof. reflexivity. Qed.

Lemma l_FVar e cur elt l b : l_ty S alloc c e (FVar elt l b) cur =
  match deduce_len c e l with
      | Some len => l_var S alloc c elt len b cur
      | None => astop DoesNotCompile
      end.
Proof. reflexivity. Qed.

Lemma l_FStruct e cur fs : l_ty S alloc c e (FStruct fs) cur =
  abind (l_fold S alloc c fs fs 0 (None, default_fields fs)) (fun res =>
        match res with
        | (Some err, _) => aret (Some (fst err), cur)
        | (None, field_list) => aret (None, VRec field_list)
        end).
Proof. reflexivity. Qed.

Lemma l_FArrRec e cur n fs : l_ty S alloc c e (FArrRec n fs) cur =
  let elem := abind (l_fold S alloc c fs fs 0 (None, default_fields fs)) (fun res =>
                    match res with
                    | (Some err, _) => aret (Some (fst err), VRec (default_fields fs))
                    | (None, field_list) => aret (None, VRec field_list)
                    end) in
      abind (read_buffer_of_records S elem n (repeat (VRec (default_fields fs)) n)) (fun r =>
        match r with (res, value) => aret (res, VSeq value) end).
Proof. reflexivity. Qed.

Lemma l_FVecRec e cur fs recsz l b : l_ty S alloc c e (FVecRec fs recsz l b) cur =
  match deduce_len c e l with
      | Some len =>
          if ceiling c b / recsz <? len then aret (Some ExcessiveLength, cur)
          else
            let elem := abind (l_fold S alloc c fs fs 0 (None, default_fields fs)) (fun res =>
                          match res with
                          | (Some err, _) => aret (Some (fst err), VRec (default_fields fs))
                          | (None, field_list) => aret (None, VRec field_list)
                          end) in
            abind (aalloc S alloc (len * recsz)) (fun _ =>
              abind (read_buffer_of_records S elem (Z.to_nat len)
                       (repeat (VRec (default_fields fs)) (Z.to_nat len))) (fun r =>
                match r with (res, value) => aret (res, VSeq value) end))
      | None => astop DoesNotCompile
      end.
Proof. reflexivity. Qed.

Lemma l_FMaybe e cur b p ids : l_ty S alloc c e (FMaybe b p ids) cur =
  match lookups e ids with
      | Some vs =>
          if negb (p vs) then aret (None, VNone)
          else abind (l_ty S alloc c e b (default_ty b)) (fun r =>
                 match r with
                 | (Some err, _) => aret (Some err, cur)
                 | (None, v) => aret (None, VSome v)
                 end)
      | None => astop DoesNotCompile
      end.
Proof. reflexivity. Qed.

Lemma l_FUnion e cur g al : l_ty S alloc c e (FUnion g al) cur =
  match deduce_type e g with
      | Some None => aret (Some TypeDeductionFailure, cur)
      | Some (Some idx_r) => l_alts S alloc c e idx_r al 0 (None, cur)
      | None => astop DoesNotCompile
      end.
Proof. reflexivity. Qed.

Lemma l_fold_cons all i st id t k fs' : l_fold S alloc c all (FCons id t k fs') i st =
  abind (pipe st (fun field_list =>
               abind (l_ty S alloc c (mk_env all field_list) t (nth i field_list VNone)) (fun read_res =>
                 match read_res with
                 | (Some err, v) => aret (Some (err, id), set_nth i v field_list)
                 | (None, v) =>
                     checked k v (fun ok =>
                       if negb ok then aret (Some (ValidationFailure, id), set_nth i v field_list)
                       else aret (None, set_nth i v field_list))
                 end)))
            (fun st' => l_fold S alloc c all fs' (Datatypes.S i) st').
Proof. reflexivity. Qed.

Lemma l_alts_cons e idx_r idx st t k al' : l_alts S alloc c e idx_r (ACons t k al') idx st =
  abind (pipe st (fun variant =>
               if negb (Nat.eqb idx_r idx) then aret (None, variant)
               else abind (l_ty S alloc c e t (default_ty t)) (fun r =>
                      match r with
                      | (Some err, _) => aret (Some err, variant)
                      | (None, v) =>
                          checked k v (fun ok =>
                            if negb ok then aret (Some ValidationFailure, variant)
                            else aret (None, VAlt idx v))
                      end)))
            (fun st' => l_alts S alloc c e idx_r al' (Datatypes.S idx) st').
Proof. reflexivity. Qed.

Lemma fold_err all err x : forall fs i, aeq (l_fold S alloc c all fs i (Some err, x)) (aret (Some err, x)).
Proof.
  induction fs; intros i s; auto. rewrite l_fold_cons. cbn [pipe]. rewrite abind_ret. apply IHfs.
Qed.

Lemma alts_err e idx_r err x : forall al i, aeq (l_alts S alloc c e idx_r al i (Some err, x)) (aret (Some err, x)).
Proof.
  induction al; intros i s; auto. rewrite l_alts_cons. cbn [pipe]. rewrite abind_ret. apply IHal.
Qed.

Lemma alts_past e idx_r x : forall al i, (idx_r < i)%nat ->
  aeq (l_alts S alloc c e idx_r al i (None, x)) (aret (None, x)).
Proof.
  induction al; intros i H s; auto. rewrite l_alts_cons. cbn [pipe].
  destruct (Nat.eqb_spec idx_r i); [lia|]. cbn [negb]. rewrite abind_ret. apply IHal. lia.
Qed.

(** ** The whole reader *)

Lemma f_len_app a b : f_len (f_app a b) = (f_len a + f_len b)%nat.
Proof. induction a; simpl; auto. Qed.

Lemma sim_fields_start fs (H : forall pre slots, NoDup (f_ids (f_app pre fs)) ->
    length slots = f_len (f_app pre fs) ->
    sim top (fun vs => firstn (f_len pre) slots ++ vs) (read_fields c (mk_env (f_app pre fs) slots) fs)
        (l_fold S alloc c (f_app pre fs) fs (f_len pre) (None, slots))) :
  NoDup (f_ids fs) ->
  sim top (fun vs => vs) (read_fields c (mk_env fs (default_fields fs)) fs)
      (l_fold S alloc c fs fs 0 (None, default_fields fs)).
Proof.
  intros Hn. apply (H FNil (default_fields fs)); auto. apply default_fields_length.
Qed.

Lemma deduce_len_nonneg e l len : deduce_len c e l = Some len -> 0 <= len.
Proof.
  destruct l; simpl.
  - destruct (lookup e id) as [[]|]; intros H; inversion H. apply to_size_range.
  - destruct (lookups e ids); intros H; inversion H. apply to_size_range.
Qed.

Lemma sim_all :
  (forall t, forall seen G e cur, wf_ty seen t = true -> typed_ty G t = true ->
     sim top (fun v => v) (read_ty c e t) (l_ty S alloc c e t cur)) /\
  (forall fs, forall seen G pre slots, wf_fields seen fs = true -> typed_fields G fs = true ->
     NoDup (f_ids (f_app pre fs)) -> length slots = f_len (f_app pre fs) ->
     sim top (fun vs => firstn (f_len pre) slots ++ vs) (read_fields c (mk_env (f_app pre fs) slots) fs)
         (l_fold S alloc c (f_app pre fs) fs (f_len pre) (None, slots))) /\
  (forall al, forall seen G e idx idx_r cur, wf_alts seen al = true -> typed_alts G al = true ->
     (idx <= idx_r < idx + a_len al)%nat ->
     sim top (fun v => VAlt idx_r v) (read_alts c e al (idx_r - idx))
         (l_alts S alloc c e idx_r al idx (None, cur))).
Proof.
  apply schema_mutind; intros.
  - apply sim_fixed.
  - rewrite l_FVar. cbn [read_ty]. destruct (deduce_len c e l) eqn:E; [|intros s; simpl; auto].
    apply sim_var. eapply deduce_len_nonneg; eauto.
  - rewrite l_FStruct. cbn [read_ty wf_ty typed_ty] in *.
    destruct (wf_fields_ids _ _ H0) as [Hn _].
    assert (Hs := sim_fields_start fs (fun pre slots => H _ _ pre slots H0 H1) Hn). clear H.
    intros s. specialize (Hs s). rewrite rrun_bind, rrun_maperr, abind_run.
    destruct (rrun S alloc _ s) as [[o s1] ev1]. destruct (l_fold _ _ _ _ _ _ _ s) as [[d s2] ev2].
    destruct Hs as (-> & -> & Hr).
    destruct o, d as [[[e'|] y]| | |]; cbn [rel] in Hr; try tauto; simpl; rewrite ?app_nil_r; auto.
    + destruct Hr as [-> _]. unfold top. auto.
    + subst. auto.
  - rewrite l_FArrRec. cbn [read_ty wf_ty typed_ty] in *.
    destruct (wf_fields_ids _ _ H0) as [Hn _].
    assert (Hs := sim_fields_start fs (fun pre slots => H _ _ pre slots H0 H1) Hn). clear H.
    eapply sim_aeq; [|eapply sim_bind with (k := fun r => match r with (res, value) => aret (res, VSeq value) end);
                      [apply (sim_records fs n _ Hs)| |]].
    + intros s. reflexivity.
    + intros er x. eexists. intros s. reflexivity.
    + intros v _. apply sim_ret; unfold top; auto.
  - rewrite l_FVecRec. cbn [read_ty wf_ty typed_ty] in *.
    apply andb_true_iff in H0. destruct H0 as [H0 _]. apply andb_true_iff in H0. destruct H0 as [H0 _].
    apply andb_true_iff in H1. destruct H1 as [H1 _].
    destruct (wf_fields_ids _ _ H0) as [Hn _].
    assert (Hs := sim_fields_start fs (fun pre slots => H _ _ pre slots H0 H1) Hn). clear H.
    destruct (deduce_len c e l) as [len|] eqn:E; [|intros s; simpl; auto].
    unfold len_allowed. destruct (ceiling c b / recsz <? len); cbn [negb]; [apply sim_err|].
    apply sim_alloc.
    eapply sim_aeq; [|eapply sim_bind with (k := fun r => match r with (res, value) => aret (res, VSeq value) end);
                      [apply (sim_records fs (Z.to_nat len) _ Hs)| |]].
    + intros s. reflexivity.
    + intros er x. eexists. intros s. reflexivity.
    + intros v _. apply sim_ret; unfold top; auto.
  - rewrite l_FMaybe. cbn [read_ty wf_ty typed_ty] in *.
    apply andb_true_iff in H0. destruct H0 as [_ H0]. apply andb_true_iff in H1. destruct H1 as [_ H1].
    destruct (lookups e ids); [|intros s; simpl; auto].
    destruct (p l); cbn [negb]; [|apply sim_ret; unfold top; auto].
    eapply sim_bind.
    + eapply H; eauto.
    + intros er x. eexists. intros s. reflexivity.
    + intros v _. apply sim_ret; unfold top; auto.
  - rewrite l_FUnion. cbn [read_ty wf_ty typed_ty] in *.
    apply andb_true_iff in H0. destruct H0 as [_ H0]. apply andb_true_iff in H1. destruct H1 as [H1 H2].
    destruct (deduce_type e g) as [[i|]|] eqn:E; [|apply sim_err|intros s; simpl; auto].
    pose proof (deduced_below _ _ _ _ _ H1 E) as Hi.
    assert (Hs := H seen G e O i cur H0 H2 ltac:(lia)). rewrite Nat.sub_0_r in Hs. clear H.
    intros s. specialize (Hs s). rewrite rrun_bind. cbn [rrun].
    destruct (rrun S alloc _ s) as [[o s1] ev1]. destruct (l_alts _ _ _ _ _ _ _ _ s) as [[d s2] ev2].
    destruct Hs as (-> & -> & Hr).
    destruct o, d as [[[e'|] y]| | |]; cbn [rel] in Hr; try tauto; simpl; rewrite ?app_nil_r; auto.
  - apply sim_ret; [|unfold top; auto].
    rewrite f_app_nil in H2. rewrite <- H2, firstn_all, app_nil_r. auto.
  - rename c0 into k. cbn [wf_fields typed_fields] in *.
    apply andb_true_iff in H1. destruct H1 as [H1 H1']. apply andb_true_iff in H1. destruct H1 as [_ H1].
    apply andb_true_iff in H2. destruct H2 as [H2 H2']. apply andb_true_iff in H2. destruct H2 as [H2 _].
    set (all := f_app pre (FCons id t k fs)) in *.
    assert (Hall : f_app (f_app pre (FCons id t k FNil)) fs = all) by (rewrite f_app_assoc; reflexivity).
    assert (Hlt : (f_len pre < length slots)%nat) by (rewrite H4; unfold all; rewrite f_len_app; simpl; lia).
    rewrite l_fold_cons. cbn [read_fields pipe].
    eapply sim_bind with (P := top) (g := fun v => set_nth (f_len pre) v slots).
    + intros s. specialize (H seen G (mk_env all slots) (nth (f_len pre) slots VNone) H1 H2 s).
      rewrite rrun_maperr, rrun_bind, abind_run.
      destruct (rrun S alloc (read_ty _ _ _) s) as [[o s1] ev1]. destruct (l_ty _ _ _ _ _ _ s) as [[d s2] ev2].
      destruct H as (-> & -> & Hr).
      destruct o, d as [[[e'|] y]| | |]; cbn [rel] in Hr; try tauto; simpl; rewrite ?app_nil_r; auto.
      * destruct Hr as [-> _]. unfold rcheck, checked. destruct (check k a); simpl; rewrite ?app_nil_r; auto.
        unfold top; auto.
      * subst. auto.
    + intros er x. eexists. apply fold_err.
    + intros v _.
      assert (E : update (mk_env all slots) id v = mk_env all (set_nth (f_len pre) v slots))
        by (symmetry; apply mk_env_set_nth; auto).
      rewrite E.
      specialize (H0 (id :: seen) ((id, t) :: G) (f_app pre (FCons id t k FNil)) (set_nth (f_len pre) v slots)).
      rewrite Hall, set_nth_length, f_len_app in H0. cbn [f_len] in H0. rewrite Nat.add_1_r in H0.
      specialize (H0 H1' H2' H3 H4).
      intros s. specialize (H0 s). rewrite rrun_bind. cbn [rrun].
      destruct (rrun S alloc _ s) as [[o s1] ev1]. destruct (l_fold _ _ _ _ _ _ _ s) as [[d s2] ev2].
      destruct H0 as (-> & -> & Hr).
      destruct o, d as [[[e'|] y]| | |]; cbn [rel] in Hr; try tauto; simpl; rewrite ?app_nil_r; auto.
      destruct Hr as [-> _]. split; [|split]; auto. split; [|unfold top; auto].
      rewrite set_nth_firstn by auto. rewrite <- app_assoc. reflexivity.
  - cbn [a_len] in *. lia.
  - rename c0 into k. cbn [wf_alts typed_alts a_len] in *.
    apply andb_true_iff in H1. destruct H1 as [H1 H1'].
    apply andb_true_iff in H2. destruct H2 as [H2 H2']. apply andb_true_iff in H2. destruct H2 as [H2 _].
    apply andb_true_iff in H2. destruct H2 as [_ H2].
    rewrite l_alts_cons. cbn [pipe]. destruct (Nat.eqb_spec idx_r idx) as [->|Hne]; cbn [negb].
    + rewrite Nat.sub_diag. cbn [read_alts].
      assert (Hs := H seen G e (default_ty t) H1 H2). clear H H0.
      intros s. specialize (Hs s). rewrite rrun_bind, abind_run, abind_run.
      destruct (rrun S alloc _ s) as [[o s1] ev1]. destruct (l_ty _ _ _ _ _ _ s) as [[d s2] ev2].
      destruct Hs as (-> & -> & Hr).
      destruct o, d as [[[e'|] y]| | |]; cbn [rel] in Hr; try tauto.
      * destruct Hr as [-> _]. unfold rcheck, checked. destruct (check k a); simpl;
          rewrite ?app_nil_r; auto.
        -- rewrite alts_past by lia. simpl. rewrite ?app_nil_r. unfold top. auto.
        -- rewrite alts_err. simpl. rewrite ?app_nil_r. auto.
      * subst. simpl. rewrite alts_err. simpl. rewrite ?app_nil_r. auto.
    + replace (idx_r - idx)%nat with (Datatypes.S (idx_r - Datatypes.S idx)) by lia. cbn [read_alts].
      eapply sim_aeq; [apply abind_ret|]. eapply H0; eauto. lia.
Qed.

Lemma literal_cast fs s : wf fs = true -> typed fs = true ->
  l_cast S alloc c fs s = rrun S alloc (struct_cast c fs) s.
Proof.
  intros Hw Ht. unfold wf, typed in *.
  destruct (wf_fields_ids _ _ Hw) as [Hn _].
  pose proof (sim_fields_start fs (fun pre slots => proj1 (proj2 sim_all) fs _ _ pre slots Hw Ht) Hn) as Hs.
  specialize (Hs s). unfold l_cast, struct_cast.
  destruct (rrun S alloc _ s) as [[o s1] ev1]. destruct (l_fold _ _ _ _ _ _ _ s) as [[d s2] ev2].
  destruct Hs as (-> & -> & Hr).
  destruct o, d as [[[e'|] y]| | |]; cbn [rel] in Hr; try tauto.
  - destruct Hr as [-> _]. auto.
  - subst. auto.
Qed.

End Sim.
