(** Facts about the reader with copies. *)
From Coq Require Import ZifyBool ZifyNat.
From Verif Require Import PropDefs CopySpec Copies ProgFacts BytesFacts ReadFacts ReadMore ReadLemmas TotalFacts.
Local Open Scope Z_scope.

Definition sum (l : list Z) : Z := fold_right Z.add 0 l.

Lemma sum_app l m : sum (l ++ m) = sum l + sum m.
Proof. unfold sum. induction l; simpl; lia. Qed.
Lemma sum_cons n l : sum (n :: l) = n + sum l.
Proof. reflexivity. Qed.
Lemma sum_nil : sum [] = 0.
Proof. reflexivity. Qed.
Lemma sum_nonneg l : Forall (fun n => 0 <= n) l -> 0 <= sum l.
Proof. unfold sum. induction 1; simpl; lia. Qed.

(** [R P d acc x p q]: [q] is [p] with copies.  [acc]: the blocks asked for so far by
    resizing, [x]: the bytes asked for so far by copying.  What has been copied is at
    most [d] times what has been resized. *)
Inductive R {E A} (P : A -> list Z -> Z -> Prop) (d : Z) : list Z -> Z -> rprog E A -> rprog E A -> Prop :=
| R_ret acc x a : P a acc x -> R P d acc x (RRet a) (RRet a)
| R_err acc x e : R P d acc x (RErr e) (RErr e)
| R_ub acc x : R P d acc x RUB RUB
| R_stuck acc x : R P d acc x RStuck RStuck
| R_read acc x n e k k' : (forall bs, R P d acc x (k bs) (k' bs)) ->
    R P d acc x (RRead n e k) (RRead n e k')
| R_alloc acc x n p q : 0 <= n -> R P d (acc ++ [n]) x p q -> R P d acc x (RAlloc n p) (RAlloc n q)
| R_copy acc x n p q : In n acc -> 0 <= n -> x + n <= d * sum acc -> R P d acc (x + n) p q ->
    R P d acc x p (RAlloc n q).

Lemma R_bind {E A B} P (P' : B -> list Z -> Z -> Prop) d (f f' : A -> rprog E B) acc x p q :
  R P d acc x p q -> (forall a acc' x', P a acc' x' -> R P' d acc' x' (f a) (f' a)) ->
  R P' d acc x (rbind p f) (rbind q f').
Proof. induction 1; intros Hf; simpl; try constructor; auto. Qed.

Lemma R_maperr {E E' A} P d (g : E -> E') acc x (p q : rprog E A) :
  R P d acc x p q -> R P d acc x (rmaperr g p) (rmaperr g q).
Proof. induction 1; simpl; constructor; auto. Qed.

Lemma R_weak {E A} (P P' : A -> list Z -> Z -> Prop) d acc x (p q : rprog E A) :
  R P d acc x p q -> (forall a acc' x', P a acc' x' -> P' a acc' x') -> R P' d acc x p q.
Proof. induction 1; intros; constructor; auto. Qed.

(** Copying blocks that are there. *)
Lemma R_copying {E A} P d (p q : rprog E A) acc l : forall x,
  (forall n, In n l -> In n acc) -> Forall (fun n => 0 <= n) l ->
  x + sum l <= d * sum acc -> R P d acc (x + sum l) p q -> R P d acc x p (copying l q).
Proof.
  induction l as [|n l IH]; intros x Hin Hn Hb Hr; cbn [copying fold_right].
  - rewrite sum_nil, Z.add_0_r in Hr. auto.
  - inversion Hn; subst. rewrite sum_cons in Hb, Hr.
    pose proof (sum_nonneg l ltac:(assumption)).
    apply R_copy; auto.
    + apply Hin. left; auto.
    + lia.
    + fold (copying (E:=E) l q). apply IH; auto.
      * intros; apply Hin; right; auto.
      * lia.
      * replace (x + n + sum l) with (x + (n + sum l)) by lia. auto.
Qed.


(** ** What is paid *)
Definition recs (g : list val -> list Z) (x : val) : list Z :=
  match x with VRec vs => g vs | _ => [] end.
Definition recp (g : list val -> Z) (x : val) : Z :=
  match x with VRec vs => g vs | _ => 0 end.

Lemma paid_recs k (h : list val -> list Z) (p p' : list val -> Z) xs :
  (forall vs, p vs = k * sum (h vs) + p' vs) ->
  sum (map (recp p) xs) = k * sum (flat_map (recs h) xs) + sum (map (recp p') xs).
Proof.
  intros H. induction xs as [|x xs IH]; cbn [map flat_map].
  - rewrite !sum_nil. lia.
  - rewrite !sum_cons, sum_app, IH. destruct x; cbn [recs recp]; rewrite ?sum_nil, ?H; lia.
Qed.

Lemma paid_more :
  (forall t k v, paid k t v = k * sum (heap_ty t v) + paid 0 t v) /\
  (forall fs k vs, paid_fields k fs vs = k * sum (heap_fields fs vs) + paid_fields 0 fs vs) /\
  (forall al k i v, paid_alt k al i v = k * sum (heap_alts al i v) + paid_alt 0 al i v).
Proof.
  assert (H0 : forall k, k * sum [] = 0) by (intros; rewrite sum_nil; lia).
  apply schema_mutind.
  - intros t n k v. cbn [paid heap_ty]. rewrite H0. lia.
  - intros elt l b k v. cbn [paid heap_ty]. destruct v; rewrite ?H0; try lia.
    unfold bytes_held. rewrite sum_cons, sum_nil. lia.
  - intros fs IH k v. cbn [paid heap_ty]. destruct v; rewrite ?H0; try lia.
    rewrite IH, (IH (0 + 2)). lia.
  - intros n fs IH k v. cbn [paid heap_ty]. destruct v; rewrite ?H0; try lia.
    fold (recp (paid_fields (k + 2) fs)). fold (recp (paid_fields (0 + 2) fs)). fold (recs (heap_fields fs)).
    apply paid_recs. intros vs. rewrite IH, (IH (0 + 2)). lia.
  - intros fs IH recsz l b k v. cbn [paid heap_ty]. destruct v; rewrite ?H0; try lia.
    fold (recp (paid_fields (k + 2) fs)). fold (recp (paid_fields (0 + 2) fs)). fold (recs (heap_fields fs)).
    change (fold_right Z.add 0) with sum.
    rewrite (paid_recs k (heap_fields fs) (paid_fields (k + 2) fs) (paid_fields (0 + 2) fs)).
    + rewrite sum_cons. unfold bytes_held. lia.
    + intros vs. rewrite IH, (IH (0 + 2)). lia.
  - intros b IH p ids k v. cbn [paid heap_ty]. destruct v; rewrite ?H0; try lia.
    rewrite IH, (IH (0 + 1)). lia.
  - intros g al IH k v. cbn [paid heap_ty]. destruct v; rewrite ?H0; try lia; apply IH.
  - intros k vs. cbn [paid_fields heap_fields]. rewrite H0. lia.
  - intros id t IHt q fs IHf k vs. cbn [paid_fields heap_fields]. destruct vs; rewrite ?H0; try lia.
    rewrite IHt, IHf, sum_app. lia.
  - intros k i v. cbn [paid_alt heap_alts]. rewrite H0. lia.
  - intros t IHt q al IHa k i v. cbn [paid_alt heap_alts]. destruct i; auto.
Qed.

Lemma times_pos : (forall t, 1 <= times t) /\ (forall fs, 1 <= times_fields fs) /\ (forall al, 1 <= times_alts al).
Proof. apply schema_mutind; cbn [times times_fields times_alts]; intros; lia. Qed.

(** What copying adds, when the value itself is not copied. *)
Definition extra t v := paid 0 t v - sum (heap_ty t v).
Definition extra_fields fs vs := paid_fields 0 fs vs - sum (heap_fields fs vs).
Definition extra_alt al i v := paid_alt 0 al i v - sum (heap_alts al i v).

Definition nonneg (l : list Z) := Forall (fun n => 0 <= n) l.

(** Where a reader ends that makes a value with blocks [h v] and extra [ex v], at most
    [m] times the blocks. *)
Definition Q {A} (h : A -> list Z) (ex : A -> Z) (m : Z) acc x (v : A) acc' x' : Prop :=
  acc' = acc ++ h v /\ x' = x + ex v /\ nonneg (h v) /\ 0 <= ex v <= m * sum (h v).

Definition good {E A} (h : A -> list Z) (ex : A -> Z) (m : Z) (p q : rprog E A) : Prop :=
  forall d acc x, m <= d -> nonneg acc -> 0 <= x <= d * sum acc ->
    R (Q h ex m acc x) d acc x p q.

Lemma Q_next {A} (h : A -> list Z) ex m d acc x v acc' x' : 0 <= m <= d -> nonneg acc ->
  0 <= x <= d * sum acc -> Q h ex m acc x v acc' x' -> nonneg acc' /\ 0 <= x' <= d * sum acc'.
Proof.
  intros Hm Hn Hx (-> & -> & Hh & He). pose proof (sum_nonneg _ Hh). split.
  - apply Forall_app; auto.
  - rewrite sum_app. nia.
Qed.

Lemma good_rep {E A} (h : A -> list Z) ex m n (p q : rprog E A) : 0 <= m ->
  good h ex m p q ->
  forall d acc x, m <= d -> nonneg acc -> 0 <= x <= d * sum acc ->
  R (fun l acc' x' => Q (flat_map h) (fun l => sum (map ex l)) m acc x l acc' x' /\ length l = n)
    d acc x (rrep n p) (rrep n q).
Proof.
  intros Hm G. induction n as [|n IH]; intros d acc x Hd Hn Hx; cbn [rrep].
  - constructor. unfold Q. cbn [flat_map map]. rewrite app_nil_r, !sum_nil.
    repeat split; auto; try lia. constructor.
  - eapply R_bind; [apply G; eauto|]. intros a acc1 x1 H1.
    destruct (Q_next _ _ _ d _ _ _ _ _ (conj Hm Hd) Hn Hx H1) as [Hn1 Hx1].
    eapply R_bind; [apply IH; eauto|]. intros l acc2 x2 [H2 Hl]. constructor.
    destruct H1 as (-> & -> & Hh1 & He1). destruct H2 as (-> & -> & Hh2 & He2).
    unfold Q. cbn [flat_map map]. rewrite <- app_assoc, sum_cons, sum_app.
    repeat split; auto; try lia.
    + apply Forall_app; auto.
    + simpl. lia.
Qed.

Lemma good_copy {E A B} (h : A -> list Z) ex m (h' : B -> list Z) ex' m' (f : A -> B) (p q : rprog E A) :
  0 <= m -> good h ex m p q ->
  (forall a, h' (f a) = h a) -> (forall a, ex' (f a) = ex a + sum (h a)) -> m + 1 <= m' ->
  good h' ex' m' (rbind p (fun v => RRet (f v))) (rbind q (fun v => copying (h v) (RRet (f v)))).
Proof.
  intros Hm G Hh Hex Hm' d acc x Hd Hn Hx.
  eapply R_bind; [apply G; auto; lia|]. intros a acc1 x1 (-> & -> & Hh1 & He1).
  pose proof (sum_nonneg _ Hh1).
  apply R_copying; auto.
  - intros n Hi. apply in_or_app. auto.
  - rewrite sum_app. nia.
  - constructor. unfold Q. rewrite Hh, Hex. repeat split; auto; nia.
Qed.

Lemma good_bind0 {E A B} (h : A -> list Z) ex m (h' : B -> list Z) ex' m' (f : A -> rprog E B) (p q : rprog E A) :
  0 <= m <= m' -> good h ex m p q ->
  (forall a, f a = RUB \/ f a = RStuck \/ (exists e, f a = RErr e) \/
             exists b, f a = RRet b /\ h' b = h a /\ ex' b = ex a) ->
  good h' ex' m' (rbind p f) (rbind q f).
Proof.
  intros Hm G Hf d acc x Hd Hn Hx.
  eapply R_bind; [apply G; auto; lia|]. intros a acc1 x1 (-> & -> & Hh1 & He1).
  pose proof (sum_nonneg _ Hh1).
  destruct (Hf a) as [->|[->|[[e ->]|(b & -> & Eh & Ee)]]]; constructor.
  unfold Q. rewrite Eh, Ee. repeat split; auto; nia.
Qed.

Lemma good_maperr {E E' A} (h : A -> list Z) ex m (g : E -> E') (p q : rprog E A) :
  good h ex m p q -> good h ex m (rmaperr g p) (rmaperr g q).
Proof. intros G d acc x Hd Hn Hx. apply R_maperr. auto. Qed.

(** Programs that only read. *)
Fixpoint silent {E A} (p : rprog E A) : Prop :=
  match p with
  | RRead _ _ k => forall bs, silent (k bs)
  | RAlloc _ _ => False
  | _ => True
  end.

Lemma R_silent {E A} d acc x (p : rprog E A) :
  silent p -> R (fun _ acc' x' => acc' = acc /\ x' = x) d acc x p p.
Proof. intros Hs. induction p; simpl in *; try constructor; auto; contradiction. Qed.

Lemma silent_bind {E A B} (p : rprog E A) (f : A -> rprog E B) :
  silent p -> (forall a, silent (f a)) -> silent (rbind p f).
Proof. induction p; simpl; auto. Qed.

Lemma silent_rep {E A} n (p : rprog E A) : silent p -> silent (rrep n p).
Proof. intros H. induction n; simpl; auto. apply silent_bind; auto. intros a. apply silent_bind; simpl; auto. Qed.

Lemma silent_raw c esz len : silent (read_raw c esz len).
Proof.
  unfold read_raw. destruct (c_cx c); simpl; auto.
  apply silent_bind; simpl; auto. apply silent_rep. simpl. auto.
Qed.

Lemma sequence_len {A} (l : list (option A)) r : sequence l = Some r -> length r = length l.
Proof.
  revert r. induction l as [|[a|] l IH]; simpl; intros r H; try discriminate.
  - injection H as <-. auto.
  - destruct (sequence l); try discriminate. injection H as <-. simpl. auto.
Qed.

Lemma R_unret {E A} P d acc x (p q : rprog E A) :
  R P d acc x (rbind p (fun v => RRet v)) q -> R P d acc x p q.
Proof.
  intros X. remember (rbind p (fun v => RRet v)) as r eqn:Er. revert p Er.
  induction X; intros p0 Er.
  7: { apply R_copy; auto. }
  all: destruct p0; simpl in Er; try discriminate; try (injection Er; intros; subst); constructor; eauto.
Qed.

Section Main.
Variable c : cfg.

Lemma good_record fs (p q : rprog (reason * ident) (list val)) :
  good (heap_fields fs) (extra_fields fs) (times_fields fs - 1) p q ->
  good (recs (heap_fields fs)) (recp (fun vs => extra_fields fs vs + 2 * sum (heap_fields fs vs)))
       (times_fields fs + 1)
       (rbind (rmaperr fst p) (fun vs => RRet (VRec vs))) (cp_record fs q).
Proof.
  intros G. pose proof (proj1 (proj2 times_pos) fs).
  intros d acc x Hd Hn Hx. unfold cp_record.
  enough (X : R (Q (heap_fields fs) (fun vs => extra_fields fs vs + sum (heap_fields fs vs)) (times_fields fs) acc x) d acc x
                (rmaperr fst p) (rmaperr fst (rbind q (fun vs => copying (heap_fields fs vs) (RRet vs))))).
  { eapply R_bind; [exact X|]. intros vs acc1 x1 (-> & -> & Hh1 & He1).
    pose proof (sum_nonneg _ Hh1).
    apply R_copying; auto.
    - intros n Hi. apply in_or_app. auto.
    - rewrite sum_app. nia.
    - constructor. unfold Q. cbn [recs recp]. repeat split; auto; nia. }
  apply R_maperr.
  assert (X : R (Q (heap_fields fs) (fun vs => extra_fields fs vs + sum (heap_fields fs vs)) (times_fields fs) acc x) d acc x
     (rbind p (fun v => RRet v)) (rbind q (fun vs => copying (heap_fields fs vs) (RRet vs)))).
  { eapply R_bind; [apply G; auto; lia|]. intros vs acc1 x1 (-> & -> & Hh1 & He1).
    pose proof (sum_nonneg _ Hh1).
    apply R_copying; auto.
    - intros n Hi. apply in_or_app. auto.
    - rewrite sum_app. nia.
    - constructor. unfold Q. repeat split; auto; nia. }
  apply R_unret. exact X.
Qed.

Lemma good_rcheck h ex m k (p q : rprog reason val) : 0 <= m -> good h ex m p q ->
  good h ex m (rbind p (rcheck k)) (rbind q (rcheck k)).
Proof.
  intros Hm G. apply good_bind0 with h ex m; auto; [lia|].
  intros a. unfold rcheck. destruct (check k a); eauto 8.
Qed.

Lemma good_mono {E A} (h : A -> list Z) ex m m' (p q : rprog E A) : m <= m' ->
  good h ex m p q -> good h ex m' p q.
Proof.
  intros Hm G d acc x Hd Hn Hx. eapply R_weak; [apply G; auto; lia|].
  intros a acc' x' (-> & -> & Hh & He). pose proof (sum_nonneg _ Hh). unfold Q. repeat split; auto; nia.
Qed.

Lemma good_ext {E A} (h h' : A -> list Z) ex ex' m (p q : rprog E A) :
  (forall a, h a = h' a) -> (forall a, ex a = ex' a) -> good h ex m p q -> good h' ex' m p q.
Proof.
  intros Eh Ee G d acc x Hd Hn Hx. eapply R_weak; [apply G; auto|].
  intros a acc' x' (-> & -> & Hh & He). unfold Q. rewrite <- Eh, <- Ee. auto.
Qed.

Lemma extra_record fs vs : extra (FStruct fs) (VRec vs) = extra_fields fs vs + 2 * sum (heap_fields fs vs).
Proof. unfold extra, extra_fields. cbn [paid heap_ty]. rewrite (proj1 (proj2 paid_more)). lia. Qed.

Lemma sum_minus {A} (f : A -> Z) (g : A -> list Z) (k : A -> Z) l :
  (forall a, k a = f a - sum (g a)) -> sum (map k l) = sum (map f l) - sum (flat_map g l).
Proof.
  intros H. induction l as [|a l IH]; cbn [map flat_map].
  - rewrite !sum_nil. lia.
  - rewrite !sum_cons, sum_app, IH, H. lia.
Qed.

Lemma rec_extra fs x : recp (fun vs => extra_fields fs vs + 2 * sum (heap_fields fs vs)) x =
  recp (paid_fields (0 + 2) fs) x - sum (recs (heap_fields fs) x).
Proof.
  destruct x; cbn [recp recs]; rewrite ?sum_nil; try lia.
  rewrite <- extra_record. unfold extra. cbn [paid heap_ty]. lia.
Qed.

Lemma good_err {E A} (h : A -> list Z) ex m (e : E) : good h ex m (RErr e) (RErr e).
Proof. intros d acc x Hd Hn Hx. constructor. Qed.
Lemma good_stuck {E A} (h : A -> list Z) ex m : @good E A h ex m RStuck RStuck.
Proof. intros d acc x Hd Hn Hx. constructor. Qed.

Lemma good_all :
  (forall t seen e, wf_ty seen t = true ->
     good (heap_ty t) (extra t) (times t - 1) (read_ty c e t) (cp_read_ty c e t)) /\
  (forall fs seen e, wf_fields seen fs = true ->
     good (heap_fields fs) (extra_fields fs) (times_fields fs - 1) (read_fields c e fs) (cp_read_fields c e fs)) /\
  (forall al seen e i, wf_alts seen al = true ->
     good (heap_alts al i) (extra_alt al i) (times_alts al - 1) (read_alts c e al i) (cp_read_alts c e al i)).
Proof.
  destruct times_pos as (Tt & Tf & Ta).
  apply schema_mutind.
  - intros t n seen e _ d acc x Hd Hn Hx. cbn [read_ty cp_read_ty].
    eapply R_weak; [apply R_silent|].
    + unfold read_fixed. destruct (Nat.ltb _ _); simpl; auto. intros bs. destruct (load _ _ _); simpl; auto.
    + intros a acc' x' [-> ->]. unfold Q, extra. cbn [heap_ty paid times]. rewrite app_nil_r, sum_nil.
      repeat split; try lia. constructor.
  - intros elt l b seen e Hw d acc x Hd Hn Hx. cbn [read_ty cp_read_ty].
    destruct (deduce_len c e l) as [len|] eqn:El; [|constructor]. apply deduce_len_nonneg in El.
    unfold read_var. destruct (len_allowed _ _ _); [|constructor]. constructor; [nia|].
    eapply R_bind; [apply R_silent; apply silent_raw|]. intros mem acc' x' [-> ->].
    destruct (sequence _) as [vs|] eqn:Es; [|constructor].
    apply sequence_len in Es. rewrite map_length, chunks_length in Es. constructor.
    unfold Q, extra. cbn [heap_ty paid times]. unfold bytes_held. rewrite sum_cons, sum_nil, Es.
    rewrite Z2Nat.id by auto. repeat split; try lia. constructor; [nia|constructor].
  - intros fs IH seen e Hw. cbn [read_ty cp_read_ty wf_ty times] in *.
    pose proof (good_record fs _ _ (IH _ (mk_env fs (default_fields fs)) Hw)) as G.
    intros d acc x Hd Hn Hx.
    unfold cp_record in G |- *. specialize (G d acc x ltac:(lia) Hn Hx).
    (* every value made is a record *)
    eapply R_weak; [exact G|]. intros a acc' x' (-> & -> & Hh & He). unfold Q.
    destruct a; cbn [recs recp] in *; unfold extra; cbn [heap_ty paid]; rewrite ?sum_nil, ?app_nil_r in *;
      try (repeat split; auto; lia).
    pose proof (extra_record fs l) as X. unfold extra in X. cbn [heap_ty paid] in X.
    repeat split; auto; lia.
  - intros n fs IH seen e Hw. cbn [read_ty cp_read_ty wf_ty times] in *.
    pose proof (good_record fs _ _ (IH _ (mk_env fs (default_fields fs)) Hw)) as G.
    intros d acc x Hd Hn Hx.
    assert (M : 0 <= times_fields fs + 1) by (specialize (Tf fs); lia).
    eapply R_bind; [apply (good_rep _ _ _ n _ _ M G d); auto; lia|].
    intros l acc' x' [(-> & -> & Hh & He) Hl]. constructor. unfold Q, extra. cbn [heap_ty paid].
    fold (recp (paid_fields (0 + 2) fs)). fold (recs (heap_fields fs)). change (fold_right Z.add 0) with sum.
    rewrite (sum_minus _ _ _ _ (rec_extra fs)) in *. repeat split; auto; lia.
  - intros fs IH recsz l b seen e Hw. cbn [read_ty cp_read_ty wf_ty times] in *.
    apply andb_true_iff in Hw. destruct Hw as [Hw _]. apply andb_true_iff in Hw. destruct Hw as [Hw Hr].
    pose proof (good_record fs _ _ (IH _ (mk_env fs (default_fields fs)) Hw)) as G.
    intros d acc x Hd Hn Hx.
    destruct (deduce_len c e l) as [len|] eqn:El; [|constructor]. apply deduce_len_nonneg in El.
    destruct (len_allowed _ _ _); [|constructor].
    assert (0 <= len * recsz) by nia. pose proof (sum_nonneg _ Hn). specialize (Tf fs).
    constructor; [auto|]. assert (M : 0 <= times_fields fs + 1) by lia.
    eapply R_bind; [apply (good_rep _ _ _ (Z.to_nat len) _ _ M G d); [lia| |]|].
    + apply Forall_app. split; [auto|]. repeat constructor. auto.
    + rewrite sum_app, sum_cons, sum_nil. nia.
    + intros xs acc' x' [(-> & -> & Hh & He) Hl]. constructor. unfold Q, extra. cbn [heap_ty paid].
      fold (recp (paid_fields (0 + 2) fs)). fold (recs (heap_fields fs)). change (fold_right Z.add 0) with sum.
      rewrite (sum_minus _ _ _ _ (rec_extra fs)) in *. unfold bytes_held. rewrite Hl, Z2Nat.id by auto.
      rewrite <- app_assoc, sum_cons. repeat split; auto; try nia.
      constructor; auto.
  - intros b IH p ids seen e Hw. cbn [read_ty cp_read_ty wf_ty times] in *.
    apply andb_true_iff in Hw. destruct Hw as [_ Hw]. specialize (Tt b).
    destruct (lookups e ids); [|apply good_stuck]. destruct (p l).
    + apply good_copy with (h := heap_ty b) (ex := extra b) (m := times b - 1); auto; try lia.
      * eauto.
      * intros a. unfold extra. cbn [heap_ty paid]. rewrite (proj1 paid_more). lia.
    + intros d acc x Hd Hn Hx. constructor. unfold Q, extra. cbn [heap_ty paid]. rewrite app_nil_r, sum_nil.
      repeat split; try lia. constructor.
  - intros g al IH seen e Hw. cbn [read_ty cp_read_ty wf_ty times] in *.
    apply andb_true_iff in Hw. destruct Hw as [_ Hw]. specialize (Ta al).
    destruct (deduce_type e g) as [[i|]|]; [|apply good_err|apply good_stuck].
    apply good_bind0 with (heap_alts al i) (extra_alt al i) (times_alts al - 1); [lia|eauto|].
    intros a. right; right; right. eexists. split; [reflexivity|]. split; reflexivity.
  - intros seen e _ d acc x Hd Hn Hx. constructor. unfold Q, extra_fields. cbn [heap_fields paid_fields].
    rewrite app_nil_r, sum_nil. repeat split; try (cbn [times_fields]; lia). constructor.
  - intros id t IHt k fs IHf seen e Hw d acc x Hd Hn Hx. cbn [read_fields cp_read_fields wf_fields times_fields] in *.
    apply andb_true_iff in Hw. destruct Hw as [Hw Hf]. apply andb_true_iff in Hw. destruct Hw as [_ Hw].
    specialize (Tt t). specialize (Tf fs).
    assert (G1 : good (heap_ty t) (extra t) (times t - 1)
              (rmaperr (fun r => (r, id)) (rbind (read_ty c e t) (rcheck k)))
              (rmaperr (fun r => (r, id)) (rbind (cp_read_ty c e t) (rcheck k)))).
    { apply good_maperr, good_rcheck; [lia|]. eauto. }
    eapply R_bind; [apply G1; auto; lia|]. intros v acc1 x1 H1.
    assert (M : 0 <= times t - 1 <= d) by lia.
    destruct (Q_next _ _ _ d _ _ _ _ _ M Hn Hx H1) as [Hn1 Hx1].
    eapply R_bind; [eapply (IHf (id :: seen)); auto; lia|]. intros vs acc2 x2 H2. constructor.
    destruct H1 as (-> & -> & Hh1 & He1). destruct H2 as (-> & -> & Hh2 & He2).
    pose proof (sum_nonneg _ Hh1). pose proof (sum_nonneg _ Hh2).
    unfold extra, extra_fields, Q in *. cbn [heap_fields paid_fields]. rewrite <- app_assoc, sum_app.
    repeat split; auto; try nia. apply Forall_app; auto.
  - intros seen e i _. apply good_stuck.
  - intros t IHt k al IHa seen e i Hw. cbn [read_alts cp_read_alts wf_alts times_alts] in *.
    apply andb_true_iff in Hw. destruct Hw as [Hw Ha]. specialize (Tt t). specialize (Ta al).
    destruct i as [|i].
    + apply good_ext with (heap_ty t) (extra t); auto.
      apply good_rcheck; [lia|]. apply good_mono with (times t - 1); [lia|]. eauto.
    + apply good_ext with (heap_alts al i) (extra_alt al i); auto.
      apply good_mono with (times_alts al - 1); [lia|]. eauto.
Qed.

End Main.

(** ** Runs *)
Lemma R_rmem {E A} P d acc x (p q : rprog E A) : R P d acc x p q -> forall bs, rmem q bs = rmem p bs.
Proof.
  induction 1; intros bs; simpl; auto. destruct (_ <=? _); auto.
Qed.

Lemma blocks_sum ev : allocated ev = sum (blocks_of ev).
Proof.
  induction ev as [|[n b|n] ev IH]; cbn [allocated blocks_of]; auto. rewrite sum_cons. lia.
Qed.

Lemma R_run {E A} S L P d acc x (p q : rprog E A) : R P d acc x p q -> 0 <= d -> nonneg acc -> x <= d * sum acc ->
  forall s a o s1 ev o2 s2 ev2,
  rrun S granting p s = (o, s1, ev) -> arun S L q s a = (o2, s2, ev2) ->
  exists r k rest,
    blocks_of ev = r ++ rest /\ allocated ev2 = sum r + k /\ 0 <= k /\ x + k <= d * (sum acc + sum r) /\
    nonneg (blocks_of ev) /\ nonneg (blocks_of ev2) /\
    (forall n, In n (blocks_of ev2) -> In n acc \/ In n r) /\
    (o2 = Throw /\ (exists l, reads_of ev = reads_of ev2 ++ l) \/
     o2 = o /\ s2 = s1 /\ reads_of ev2 = reads_of ev /\ rest = [] /\
     (forall v, o = Ok v -> P v (acc ++ r) (x + k))).
Proof.
  induction 1 as [acc x v HP|acc x e|acc x|acc x|acc x n e k k' HR IH|acc x n p q Hn HR IH|acc x n p q Hi Hn Hb HR IH];
    intros Hd Ha Hx s a o s1 ev o2 s2 ev2 E1 E2; cbn [rrun arun] in E1, E2.
  1-4: injection E1 as <- <- <-; injection E2 as <- <- <-; exists [], 0, []; cbn [blocks_of allocated reads_of filter app];
    rewrite sum_nil, app_nil_r, !Z.add_0_r; repeat split; auto; try lia; try (constructor; fail);
    try (intros ? []; fail); right; repeat split; auto; intros ? Hv; try discriminate; injection Hv as <-; auto.
  - destruct (i_read S s n) as [[bs|] s'].
    + destruct (rrun S granting (k bs) s') as [[o' t'] ev'] eqn:F1.
      destruct (arun S L (k' bs) s' a) as [[o2' t2'] ev2'] eqn:F2.
      injection E1 as <- <- <-. injection E2 as <- <- <-.
      destruct (IH bs Hd Ha Hx _ _ _ _ _ _ _ _ F1 F2) as (r & j & rest & H1 & H2 & H3 & H4 & H5 & H6 & H7 & H8).
      exists r, j, rest. cbn [blocks_of allocated reads_of filter].
      repeat split; auto.
      fold (reads_of ev') (reads_of ev2').
      destruct H8 as [[-> [l Hl]]|(-> & -> & Hr & -> & Hv)]; [left|right].
      * split; auto. exists l. rewrite Hl. reflexivity.
      * repeat split; auto. rewrite Hr. reflexivity.
    + injection E1 as <- <- <-. injection E2 as <- <- <-.
      exists [], 0, []. cbn [blocks_of allocated reads_of filter app].
      rewrite sum_nil, !Z.add_0_r. repeat split; auto; try lia; try apply Forall_nil;
        try (intros ? []; fail).
      right. repeat split; auto. intros ? Hv. discriminate.
  - unfold granting in E1 at 1.
    destruct (rrun S granting p s) as [[o' t'] ev'] eqn:F1. injection E1 as <- <- <-.
    assert (Ha' : nonneg (acc ++ [n])) by (apply Forall_app; split; [auto|repeat constructor; auto]).
    assert (Hx' : x <= d * sum (acc ++ [n])) by (rewrite sum_app, sum_cons, sum_nil; nia).
    destruct (a_get L a n) as [a'|].
    + destruct (arun S L q s a') as [[o2' t2'] ev2'] eqn:F2. injection E2 as <- <- <-.
      destruct (IH Hd Ha' Hx' _ _ _ _ _ _ _ _ F1 F2) as (r & j & rest & H1 & H2 & H3 & H4 & H5 & H6 & H7 & H8).
      rewrite sum_app, sum_cons, sum_nil in H4.
      exists (n :: r), j, rest. cbn [blocks_of allocated reads_of filter].
      rewrite sum_cons, H1. repeat split; auto; try lia; try nia.
      * rewrite <- H1. constructor; auto.
      * constructor; auto.
      * intros m [->|Hm]; [right; left; auto|]. destruct (H7 _ Hm) as [Hm'|Hm']; [|right; right; auto].
        apply in_app_or in Hm'. destruct Hm' as [?|[->|[]]]; [left|right; left]; auto.
      * destruct H8 as [[-> [l Hl]]|(-> & -> & Hr & -> & Hv)]; [left|right].
        -- split; auto. exists l. auto.
        -- repeat split; auto. intros v Hv'. specialize (Hv v Hv'). rewrite <- app_assoc in Hv. auto.
    + injection E2 as <- <- <-.
      destruct (arun S L q s a) as [[o2' t2'] ev2'] eqn:F2.
      destruct (IH Hd Ha' Hx' _ _ _ _ _ _ _ _ F1 F2) as (r & j & rest & H1 & H2 & H3 & H4 & H5 & H6 & H7 & H8).
      exists [n], 0, (blocks_of ev'). cbn [blocks_of allocated reads_of filter app].
      rewrite sum_cons, sum_nil. rewrite sum_app, sum_cons, sum_nil in Hx'.
      repeat split; auto; try lia.
      * constructor; auto.
      * repeat constructor; auto.
      * left. split; auto. eexists. reflexivity.
  - destruct (a_get L a n) as [a'|].
    + destruct (arun S L q s a') as [[o2' t2'] ev2'] eqn:F2. injection E2 as <- <- <-.
      destruct (IH Hd Ha Hb _ _ _ _ _ _ _ _ E1 F2) as (r & j & rest & H1 & H2 & H3 & H4 & H5 & H6 & H7 & H8).
      exists r, (n + j), rest. cbn [blocks_of allocated reads_of filter].
      repeat split; auto; try lia.
      * constructor; auto.
      * intros m [->|Hm]; auto.
      * destruct H8 as [[-> Hl]|(-> & -> & Hr & -> & Hv)]; [left|right]; auto.
        repeat split; auto. intros v Hv'. specialize (Hv v Hv'). rewrite <- Z.add_assoc in Hv. auto.
    + injection E2 as <- <- <-.
      destruct (arun S L q s a) as [[o2' t2'] ev2'] eqn:F2.
      destruct (IH Hd Ha Hb _ _ _ _ _ _ _ _ E1 F2) as (r & j & rest & H1 & H2 & H3 & H4 & H5 & H6 & H7 & H8).
      exists [], n, (blocks_of ev). cbn [blocks_of allocated reads_of filter app].
      rewrite sum_nil, !Z.add_0_r. repeat split; auto; try lia.
      * repeat constructor; auto.
      * intros m [->|[]]. auto.
      * left. split; auto. eexists. reflexivity.
Qed.

(** Where a cast ends. *)
Definition done (fs : fields) (vs : list val) (acc : list Z) (x : Z) : Prop :=
  acc = heap_fields fs vs /\ x = extra_fields fs vs + sum (heap_fields fs vs) /\ 0 <= extra_fields fs vs.

Lemma cast_R c fs : wf fs = true ->
  R (done fs) (times_fields fs) [] 0 (struct_cast c fs) (cp_struct_cast c fs).
Proof.
  intros Hw. pose proof (proj1 (proj2 times_pos) fs). apply R_unret.
  eapply R_bind.
  - eapply (proj1 (proj2 (good_all c))); [exact Hw|lia|constructor|]. rewrite sum_nil. lia.
  - intros vs acc x (-> & -> & Hh & He). pose proof (sum_nonneg _ Hh). cbn [app].
    apply R_copying; auto; [nia|]. constructor. unfold done. repeat split; auto; lia.
Qed.

Lemma copies_same c fs bs : wf fs = true -> rmem (cp_struct_cast c fs) bs = rmem (struct_cast c fs) bs.
Proof. intros Hw. eapply R_rmem. apply cast_R. auto. Qed.

Lemma stateless_run S alloc {E A} (p : rprog E A) : forall s,
  arun S (stateless alloc) p s tt = rrun S alloc p s.
Proof.
  induction p as [a|e| | |n e k IH|n k IH]; intros s; cbn [arun rrun]; auto.
  - destruct (i_read S s n) as [[bs|] s']; auto. rewrite IH. reflexivity.
  - cbn [stateless a_get]. destruct (alloc n); auto. rewrite IH. reflexivity.
Qed.

Section Cast.
Variables (c : cfg) (fs : fields) (S : istream).
Hypothesis Hw : wf fs = true.

Lemma cast_run L s a o s1 ev o2 s2 ev2 :
  rrun S granting (struct_cast c fs) s = (o, s1, ev) -> arun S L (cp_struct_cast c fs) s a = (o2, s2, ev2) ->
  exists r k rest,
    blocks_of ev = r ++ rest /\ allocated ev2 = sum r + k /\ 0 <= k /\ 0 + k <= times_fields fs * (sum [] + sum r) /\
    nonneg (blocks_of ev) /\ nonneg (blocks_of ev2) /\
    (forall n, In n (blocks_of ev2) -> In n [] \/ In n r) /\
    (o2 = Throw /\ (exists l, reads_of ev = reads_of ev2 ++ l) \/
     o2 = o /\ s2 = s1 /\ reads_of ev2 = reads_of ev /\ rest = [] /\
     (forall v, o = Ok v -> done fs v ([] ++ r) (0 + k))).
Proof.
  intros E1 E2. pose proof (proj1 (proj2 times_pos) fs).
  eapply R_run; [apply cast_R; auto| | | |exact E1|exact E2].
  - lia.
  - constructor.
  - rewrite sum_nil. lia.
Qed.

Lemma copies_run L s a o s1 ev o2 s2 ev2 :
  rrun S granting (struct_cast c fs) s = (o, s1, ev) -> arun S L (cp_struct_cast c fs) s a = (o2, s2, ev2) ->
  o2 = Throw /\ (exists l, reads_of ev = reads_of ev2 ++ l) \/
  o2 = o /\ s2 = s1 /\ reads_of ev2 = reads_of ev.
Proof.
  intros E1 E2. destruct (cast_run _ _ _ _ _ _ _ _ _ E1 E2) as (r & k & rest & _ & _ & _ & _ & _ & _ & _ & H).
  destruct H as [H|(? & ? & ? & _)]; auto.
Qed.

Lemma copies_sizes L s a o s1 ev o2 s2 ev2 :
  rrun S granting (struct_cast c fs) s = (o, s1, ev) -> arun S L (cp_struct_cast c fs) s a = (o2, s2, ev2) ->
  forall n, In n (blocks_of ev2) -> In n (blocks_of ev).
Proof.
  intros E1 E2 n Hn. destruct (cast_run _ _ _ _ _ _ _ _ _ E1 E2) as (r & k & rest & H1 & _ & _ & _ & _ & _ & H & _).
  destruct (H n Hn) as [[]|Hr]. rewrite H1. apply in_or_app. auto.
Qed.

Lemma copies_bound L s a o2 s2 ev2 : arun S L (cp_struct_cast c fs) s a = (o2, s2, ev2) ->
  allocated ev2 <= (1 + times_fields fs) * total_fields c (own_memory c) fs.
Proof.
  intros E2. destruct (rrun S granting (struct_cast c fs) s) as [[o s1] ev] eqn:E1.
  pose proof (memory_bound _ _ _ _ _ _ _ _ Hw E1) as B. rewrite blocks_sum in B.
  destruct (cast_run _ _ _ _ _ _ _ _ _ E1 E2) as (r & k & rest & H1 & H2 & H3 & H4 & H5 & _).
  pose proof (proj1 (proj2 times_pos) fs).
  rewrite H1 in B, H5. apply Forall_app in H5. destruct H5 as [Hr Hrest].
  apply sum_nonneg in Hr, Hrest. rewrite sum_app in B. rewrite sum_nil in H4. nia.
Qed.

Lemma granted L s a : (forall a n, a_get L a n <> None) -> forall {E A} (p : rprog E A),
  fst (fst (arun S L p s a)) <> Throw.
Proof.
  intros H E A p. revert s a. induction p as [v|e| | |n e k IH|n k IH]; intros s a; cbn [arun]; try discriminate.
  - destruct (i_read S s n) as [[bs|] s']; [|discriminate].
    specialize (IH bs s' a). destruct (arun S L (k bs) s' a) as [[? ?] ?]. auto.
  - destruct (a_get L a n) eqn:Eg; [|destruct (H _ _ Eg)].
    specialize (IH s a0). destruct (arun S L k s a0) as [[? ?] ?]. auto.
Qed.

Lemma copies_granted s : exists o s1 ev ev2,
  rrun S granting (struct_cast c fs) s = (o, s1, ev) /\
  rrun S granting (cp_struct_cast c fs) s = (o, s1, ev2) /\ o <> Throw.
Proof.
  destruct (rrun S granting (struct_cast c fs) s) as [[o s1] ev] eqn:E1.
  destruct (rrun S granting (cp_struct_cast c fs) s) as [[o2 s2] ev2] eqn:E2.
  rewrite <- stateless_run in E2.
  pose proof (granted (stateless granting) s tt ltac:(discriminate) (cp_struct_cast c fs)) as G.
  rewrite E2 in G. cbn [fst] in G.
  destruct (copies_run _ _ _ _ _ _ _ _ _ E1 E2) as [[-> _]|(-> & -> & _)]; [congruence|].
  exists o, s1, ev, ev2. auto.
Qed.

Lemma copies_blocks s vs s1 ev :
  rrun S granting (struct_cast c fs) s = (Ok vs, s1, ev) ->
  blocks_of ev = heap_fields fs vs.
Proof.
  intros E1. destruct (rrun S granting (cp_struct_cast c fs) s) as [[o2 s2] ev2] eqn:E2.
  destruct (copies_granted s) as (o & t & ev' & ev2' & F1 & F2 & Ho).
  rewrite E1 in F1. injection F1 as <- <- <-. rewrite E2 in F2. injection F2 as -> -> ->.
  rewrite <- stateless_run in E2.
  destruct (cast_run _ _ _ _ _ _ _ _ _ E1 E2) as (r & k & rest & H1 & _ & _ & _ & _ & _ & _ & H).
  destruct H as [[H _]|(_ & _ & _ & -> & H)]; [discriminate|].
  destruct (H vs eq_refl) as (H2 & _). rewrite H1, app_nil_r. exact H2.
Qed.

Lemma copies_paid L s a vs s1 ev :
  arun S L (cp_struct_cast c fs) s a = (Ok vs, s1, ev) ->
  allocated ev = paid_fields 1 fs vs.
Proof.
  intros E2. destruct (rrun S granting (struct_cast c fs) s) as [[o t] ev1] eqn:E1.
  destruct (cast_run _ _ _ _ _ _ _ _ _ E1 E2) as (r & k & rest & H1 & H2 & _ & _ & _ & _ & _ & H).
  destruct H as [[H _]|(<- & _ & _ & -> & H)]; [discriminate|].
  destruct (H vs eq_refl) as (Hr & Hk & _). cbn [app] in Hr. subst r.
  rewrite (proj1 (proj2 paid_more)). unfold extra_fields in Hk. lia.
Qed.

Lemma copies_twice s vs s1 ev ev2 :
  rrun S granting (struct_cast c fs) s = (Ok vs, s1, ev) ->
  rrun S granting (cp_struct_cast c fs) s = (Ok vs, s1, ev2) ->
  2 * allocated ev <= allocated ev2.
Proof.
  intros E1 E2. rewrite <- stateless_run in E2.
  destruct (cast_run _ _ _ _ _ _ _ _ _ E1 E2) as (r & k & rest & H1 & H2 & _ & _ & Hn & _ & _ & H).
  destruct H as [[H _]|(_ & _ & _ & -> & H)]; [discriminate|].
  destruct (H vs eq_refl) as (Hr & Hk & He). cbn [app] in Hr. subst r.
  rewrite app_nil_r in H1.
  rewrite blocks_sum, H1, H2. lia.
Qed.

End Cast.

(** ** A fixed supply *)
Fixpoint asks_nonneg {E A} (p : rprog E A) : Prop :=
  match p with
  | RRead _ _ k => forall bs, asks_nonneg (k bs)
  | RAlloc n k => 0 <= n /\ asks_nonneg k
  | _ => True
  end.

Lemma R_asks {E A} P d acc x (p q : rprog E A) : R P d acc x p q -> asks_nonneg q.
Proof. induction 1; simpl; auto. Qed.

Lemma asks_allocated S {E A} (p : rprog E A) : asks_nonneg p -> forall s o s1 ev,
  rrun S granting p s = (o, s1, ev) -> 0 <= allocated ev.
Proof.
  induction p as [v|e| | |n e k IH|n k IH]; intros N s o s1 ev; cbn [rrun asks_nonneg] in *.
  1-4: intros [= <- <- <-]; cbn [allocated]; lia.
  - destruct (i_read S s n) as [[bs|] s'].
    + destruct (rrun S granting (k bs) s') as [[? ?] ?] eqn:F. intros [= <- <- <-]. cbn [allocated]. eauto.
    + intros [= <- <- <-]. cbn [allocated]. lia.
  - unfold granting at 1. destruct (rrun S granting k s) as [[? ?] ?] eqn:F. intros [= <- <- <-]. cbn [allocated].
    destruct N as [N1 N2]. specialize (IH N2 _ _ _ _ F). lia.
Qed.

Lemma supply_run S {E A} (p : rprog E A) : asks_nonneg p -> forall s b o s1 ev,
  rrun S granting p s = (o, s1, ev) -> 0 <= b ->
  if allocated ev <=? b then arun S supply p s b = (o, s1, ev)
  else fst (fst (arun S supply p s b)) = Throw.
Proof.
  induction p as [v|e| | |n e k IH|n k IH]; intros N s b o s1 ev; cbn [rrun arun asks_nonneg] in *.
  1-4: intros [= <- <- <-] Hb; cbn [allocated]; destruct (Z.leb_spec 0 b); auto; lia.
  - destruct (i_read S s n) as [[bs|] s'].
    + destruct (rrun S granting (k bs) s') as [[o' t'] ev'] eqn:F. intros [= <- <- <-] Hb. cbn [allocated].
      specialize (IH bs (N bs) s' b _ _ _ F Hb). destruct (allocated ev' <=? b).
      * rewrite IH. reflexivity.
      * destruct (arun S supply (k bs) s' b) as [[? ?] ?]. auto.
    + intros [= <- <- <-] Hb. cbn [allocated]. destruct (Z.leb_spec 0 b); auto; lia.
  - unfold granting at 1. destruct N as [N1 N2].
    destruct (rrun S granting k s) as [[o' t'] ev'] eqn:F. intros [= <- <- <-] Hb.
    cbn [allocated supply a_get]. pose proof (asks_allocated S k N2 _ _ _ _ F).
    destruct (Z.leb_spec n b).
    + specialize (IH N2 s (b - n) _ _ _ F ltac:(lia)).
      destruct (Z.leb_spec (allocated ev') (b - n)); destruct (Z.leb_spec (n + allocated ev') b); try lia.
      * rewrite IH. reflexivity.
      * destruct (arun S supply k s (b - n)) as [[? ?] ?]. auto.
    + destruct (Z.leb_spec (n + allocated ev') b); auto. lia.
Qed.

Lemma copies_supply c fs S s vs s1 ev b : wf fs = true -> 0 <= b ->
  rrun S granting (struct_cast c fs) s = (Ok vs, s1, ev) ->
  fst (fst (arun S supply (cp_struct_cast c fs) s b)) =
    if paid_fields 1 fs vs <=? b then Ok vs else Throw.
Proof.
  intros Hw Hb E1. destruct (copies_granted c fs S Hw s) as (o & t & ev' & ev2 & F1 & F2 & Ho).
  rewrite E1 in F1. injection F1 as <- <- <-.
  pose proof (supply_run S _ (R_asks _ _ _ _ _ _ (cast_R c fs Hw)) _ _ _ _ _ F2 Hb) as H.
  pose proof F2 as F3. rewrite <- stateless_run in F3. apply copies_paid in F3; auto. rewrite F3 in H.
  destruct (_ <=? b); auto. rewrite H. auto.
Qed.

Lemma copies_enough c fs S s b : wf fs = true ->
  (1 + times_fields fs) * total_fields c (own_memory c) fs <= b ->
  forall o s1 ev, rrun S granting (struct_cast c fs) s = (o, s1, ev) ->
  fst (arun S supply (cp_struct_cast c fs) s b) = (o, s1).
Proof.
  intros Hw Hb o s1 ev E1. destruct (copies_granted c fs S Hw s) as (o' & t & ev' & ev2 & F1 & F2 & Ho).
  rewrite E1 in F1. injection F1 as <- <- <-.
  pose proof F2 as F3. rewrite <- stateless_run in F3. apply copies_bound in F3; auto.
  pose proof (asks_allocated _ _ (R_asks _ _ _ _ _ _ (cast_R c fs Hw)) _ _ _ _ F2).
  assert (Hb' : 0 <= b) by lia.
  pose proof (supply_run S _ (R_asks _ _ _ _ _ _ (cast_R c fs Hw)) _ _ _ _ _ F2 Hb') as H1.
  destruct (Z.leb_spec (allocated ev2) b); [|lia]. rewrite H1. auto.
Qed.

(** ** The last copy *)
Lemma copying_run {E A} S (l : list Z) (v : A) s :
  rrun S granting (copying (E:=E) l (RRet v)) s = (Ok v, s, map EvAlloc l).
Proof.
  induction l as [|n l IH]; [reflexivity|]. cbn [copying fold_right]. fold (copying (E:=E) l (RRet v)).
  cbn [rrun map]. unfold granting at 1. rewrite IH. reflexivity.
Qed.

Lemma blocks_app ev ev' : blocks_of (ev ++ ev') = blocks_of ev ++ blocks_of ev'.
Proof. induction ev as [|[n d|n] ev IH]; cbn [app blocks_of]; rewrite ?IH; auto. Qed.

Lemma blocks_map l : blocks_of (map EvAlloc l) = l.
Proof. induction l; cbn [map blocks_of]; congruence. Qed.

Lemma copies_last c fs S s vs s1 ev s2 ev2 : wf fs = true ->
  rrun S granting (struct_cast c fs) s = (Ok vs, s1, ev) ->
  rrun S granting (cp_struct_cast c fs) s = (Ok vs, s2, ev2) ->
  exists before, ev2 = before ++ map EvAlloc (blocks_of ev).
Proof.
  intros Hw E1 E2. rewrite (copies_blocks c fs S Hw s vs s1 ev E1).
  unfold cp_struct_cast in E2. rewrite rrun_bind in E2.
  destruct (rrun S granting (cp_read_fields _ _ _) s) as [[[v|e'| | |] ?] ?]; try discriminate.
  rewrite copying_run in E2. injection E2 as -> _ <-. eauto.
Qed.

Lemma refused_last {E A} S L (p : rprog E A) : forall s a s1 ev,
  arun S L p s a = (Throw, s1, ev) -> exists before n, ev = before ++ [EvAlloc n].
Proof.
  induction p as [v|e| | |n e k IH|n k IH]; intros s a s1 ev; cbn [arun]; try discriminate.
  - destruct (i_read S s n) as [[bs|] s']; [|discriminate].
    destruct (arun S L (k bs) s' a) as [[? ?] ev'] eqn:F. intros [= -> -> <-].
    destruct (IH _ _ _ _ _ F) as (b & m & ->). exists (EvRead n (Some bs) :: b), m. reflexivity.
  - destruct (a_get L a n).
    + destruct (arun S L k s a0) as [[? ?] ev'] eqn:F. intros [= -> -> <-].
      destruct (IH _ _ _ _ F) as (b & m & ->). exists (EvAlloc n :: b), m. reflexivity.
    + intros [= <- <-]. exists [], n. reflexivity.
Qed.
