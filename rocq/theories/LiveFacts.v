(** Facts about the reader that gives memory back. *)
From Coq Require Import ZifyBool ZifyNat.
From Verif Require Import PropDefs LiveSpec Live ProgFacts BytesFacts TotalFacts CopyFacts.
Local Open Scope Z_scope.

(** [M P T x pk p q]: [q] is [p] with copies that are dropped again.  [T]: the bytes
    asked for so far by resizing, [x]: the bytes in use, [pk]: the most in use so far. *)
Inductive M {E A} (P : A -> Z -> Z -> Z -> Prop) : Z -> Z -> Z -> rprog E A -> mprog E A -> Prop :=
| M_ret T x pk a : P a T x pk -> M P T x pk (RRet a) (MRet a)
| M_err T x pk e : M P T x pk (RErr e) (MErr e)
| M_ub T x pk : M P T x pk RUB MUB
| M_stuck T x pk : M P T x pk RStuck MStuck
| M_read T x pk n e k k' : (forall bs, M P T x pk (k bs) (k' bs)) ->
    M P T x pk (RRead n e k) (MRead n e k')
| M_alloc T x pk n p q : 0 <= n -> M P (T + n) (x + n) (Z.max pk (x + n)) p q ->
    M P T x pk (RAlloc n p) (MAlloc n q)
| M_copy T x pk n p q : 0 <= n -> x + n <= 2 * T -> M P T (x + n) (Z.max pk (x + n)) p q ->
    M P T x pk p (MAlloc n q)
| M_free T x pk n p q : 0 <= n -> M P T (x - n) pk p q -> M P T x pk p (MFree n q).

Lemma M_bind {E A B} P (P' : B -> Z -> Z -> Z -> Prop) (f : A -> rprog E B) (f' : A -> mprog E B) T x pk p q :
  M P T x pk p q -> (forall a T' x' pk', P a T' x' pk' -> M P' T' x' pk' (f a) (f' a)) ->
  M P' T x pk (rbind p f) (mbind q f').
Proof. induction 1; intros Hf; simpl; try constructor; auto. Qed.

Lemma M_maperr {E E' A} P (g : E -> E') T x pk (p : rprog E A) q :
  M P T x pk p q -> M P T x pk (rmaperr g p) (mmaperr g q).
Proof. induction 1; simpl; constructor; auto. Qed.

Lemma M_weak {E A} (P P' : A -> Z -> Z -> Z -> Prop) T x pk (p : rprog E A) q :
  M P T x pk p q -> (forall a T' x' pk', P a T' x' pk' -> P' a T' x' pk') -> M P' T x pk p q.
Proof. induction 1; intros; constructor; auto. Qed.

Lemma M_unret {E A} P T x pk (p : rprog E A) q :
  M P T x pk (rbind p (fun v => RRet v)) q -> M P T x pk p q.
Proof.
  intros X. remember (rbind p (fun v => RRet v)) as r eqn:Er. revert p Er.
  induction X; intros p0 Er.
  7: { apply M_copy; auto. }
  7: { apply M_free; auto. }
  all: destruct p0; simpl in Er; try discriminate; try (injection Er; intros; subst); constructor; eauto.
Qed.

Lemma M_mcopy {E A} P T (p : rprog E A) q l : nonneg l -> forall x pk, x <= pk -> x + sum l <= 2 * T ->
  M P T (x + sum l) (Z.max pk (x + sum l)) p q -> M P T x pk p (mcopy l q).
Proof.
  induction 1 as [|n l Hn Hl IH]; intros x pk Hx Hb Hm; unfold mcopy; cbn [fold_right].
  - rewrite sum_nil, Z.add_0_r, Z.max_l in Hm by lia. auto.
  - rewrite sum_cons in *. pose proof (sum_nonneg _ Hl). apply M_copy; [auto|lia|].
    apply IH; [lia|lia|].
    replace (x + n + sum l) with (x + (n + sum l)) by lia.
    replace (Z.max (Z.max pk (x + n)) (x + (n + sum l))) with (Z.max pk (x + (n + sum l))) by lia. auto.
Qed.

Lemma M_mdrop {E A} P T (p : rprog E A) q l : nonneg l -> forall x pk,
  M P T (x - sum l) pk p q -> M P T x pk p (mdrop l q).
Proof.
  induction 1 as [|n l Hn Hl IH]; intros x pk Hm; unfold mdrop; cbn [fold_right].
  - rewrite sum_nil, Z.sub_0_r in Hm. auto.
  - rewrite sum_cons in Hm. apply M_free; auto. apply IH.
    replace (x - n - sum l) with (x - (n + sum l)) by lia. auto.
Qed.

Lemma M_replace {E A} P T (p : rprog E A) q l pk : nonneg l -> sum l <= T -> T <= pk ->
  M P T T (Z.max pk (T + sum l)) p q -> M P T T pk p (mreplace l q).
Proof.
  intros Hl Hs Hk Hm. unfold mreplace. apply M_mcopy; auto; [lia|].
  apply M_mdrop; auto. replace (T + sum l - sum l) with T by lia. auto.
Qed.

(** Where a reader ends: one copy of everything is in use. *)
Definition W {A} (h : A -> list Z) T (v : A) T' x' pk' : Prop :=
  T' = T + sum (h v) /\ x' = T' /\ nonneg (h v) /\ T' <= pk' <= 2 * T'.

Definition fine {E A} (h : A -> list Z) (p : rprog E A) (q : mprog E A) : Prop :=
  forall T pk, 0 <= T -> T <= pk <= 2 * T -> M (W h T) T T pk p q.

Lemma fine_rep {E A} (h : A -> list Z) n (p : rprog E A) q : fine h p q ->
  forall T pk, 0 <= T -> T <= pk <= 2 * T ->
  M (fun l T' x' pk' => W (flat_map h) T l T' x' pk' /\ length l = n) T T pk (rrep n p) (mrep n q).
Proof.
  intros G. induction n as [|n IH]; intros T pk HT Hp; cbn [rrep mrep].
  - constructor. unfold W. cbn [flat_map]. rewrite sum_nil. repeat split; auto; try lia. constructor.
  - eapply M_bind; [apply G; eauto|]. intros a T1 x1 pk1 (E1 & E2 & H1 & H2).
    pose proof (sum_nonneg _ H1). subst x1.
    eapply M_bind; [apply IH; lia|]. intros l T2 x2 pk2 [(E3 & E4 & H3 & H4) Hl]. constructor.
    unfold W. cbn [flat_map]. rewrite sum_app. repeat split; auto; try lia.
    + apply Forall_app; auto.
    + simpl. lia.
Qed.

Lemma fine_lift {E A} (h : A -> list Z) (p : rprog E A) : silent p -> (forall v, h v = []) ->
  fine h p (lift p).
Proof.
  intros Hs Hh T pk HT Hp. induction p; simpl in *; try constructor; auto; try contradiction.
  unfold W. rewrite Hh, sum_nil. repeat split; auto; try lia. constructor.
Qed.

Lemma M_lift_silent {E A} T x pk (p : rprog E A) : silent p ->
  M (fun _ T' x' pk' => T' = T /\ x' = x /\ pk' = pk) T x pk p (lift p).
Proof. intros Hs. induction p; simpl in *; try constructor; auto; contradiction. Qed.

Lemma lift_bind {E A B} (P : B -> Z -> Z -> Z -> Prop) T x pk (p : rprog E A) (f : A -> rprog E B) r :
  M P T x pk r (mbind (lift p) (fun a => lift (f a))) -> M P T x pk r (lift (rbind p f)).
Proof.
  revert T x pk r. induction p as [a|e| | |n e k IH|n k IH]; intros T x pk r H; cbn [rbind lift mbind] in *; auto.
  - remember (MRead n e (fun bs => mbind (lift (k bs)) (fun a => lift (f a)))) as q eqn:Eq.
    revert Eq. induction H; intros Eq; try discriminate.
    injection Eq as -> -> ->. constructor. intros bs. apply IH. auto.
  - remember (MAlloc n (mbind (lift k) (fun a => lift (f a)))) as q eqn:Eq.
    revert Eq. induction H; intros Eq; try discriminate.
    + injection Eq as -> ->. constructor; auto.
    + injection Eq as -> ->. apply M_copy; auto.
Qed.

Section Main.
Variable c : cfg.

Lemma fine_record fs (p : rprog (reason * ident) (list val)) q :
  fine (heap_fields fs) p q ->
  fine (recs (heap_fields fs)) (rbind (rmaperr fst p) (fun vs => RRet (VRec vs))) (m_record fs q).
Proof.
  intros G T pk HT Hp. unfold m_record.
  enough (X : M (W (heap_fields fs) T) T T pk
                (rmaperr fst p) (mmaperr fst (mbind q (fun vs => mreplace (heap_fields fs vs) (MRet vs))))).
  { eapply M_bind; [exact X|]. intros vs T1 x1 pk1 (E1 & -> & H1 & H2).
    pose proof (sum_nonneg _ H1). apply M_replace; auto; try lia.
    constructor. unfold W. cbn [recs]. repeat split; auto; lia. }
  apply M_maperr. apply M_unret.
  eapply M_bind; [apply G; auto|]. intros vs T1 x1 pk1 (E1 & -> & H1 & H2).
  pose proof (sum_nonneg _ H1). apply M_replace; auto; try lia.
  constructor. unfold W. repeat split; auto; lia.
Qed.

Lemma fine_rcheck h k (p : rprog reason val) q : fine h p q ->
  fine h (rbind p (rcheck k)) (mbind q (fun v => lift (rcheck k v))).
Proof.
  intros G T pk HT Hp. eapply M_bind; [apply G; auto|]. intros a T' x' pk' H.
  unfold rcheck. destruct (check k a); cbn [lift]; constructor; auto.
Qed.

Lemma fine_all :
  (forall t seen e, wf_ty seen t = true -> fine (heap_ty t) (read_ty c e t) (m_read_ty c e t)) /\
  (forall fs seen e, wf_fields seen fs = true ->
     fine (heap_fields fs) (read_fields c e fs) (m_read_fields c e fs)) /\
  (forall al seen e i, wf_alts seen al = true ->
     fine (heap_alts al i) (read_alts c e al i) (m_read_alts c e al i)).
Proof.
  apply schema_mutind.
  - intros t n seen e _. cbn [read_ty m_read_ty]. apply fine_lift; auto.
    unfold read_fixed. destruct (Nat.ltb _ _); simpl; auto. intros bs. destruct (load _ _ _); simpl; auto.
  - intros elt l b seen e Hw T pk HT Hp. cbn [read_ty m_read_ty].
    destruct (deduce_len c e l) as [len|] eqn:El; [|constructor]. apply deduce_len_nonneg in El.
    unfold read_var. destruct (len_allowed _ _ _); [|constructor]. cbn [lift]. constructor; [nia|].
    apply lift_bind.
    eapply M_bind; [apply M_lift_silent; apply silent_raw|]. intros mem T' x' pk' (-> & -> & ->).
    destruct (sequence _) as [vs|] eqn:Es; cbn [lift]; [|constructor].
    apply sequence_len in Es. rewrite map_length, chunks_length in Es. constructor.
    assert (0 <= len * Z.of_nat (csize elt)) by nia.
    unfold W. cbn [heap_ty]. rewrite sum_cons, sum_nil, Es, Z2Nat.id by auto.
    repeat split; try lia. constructor; [nia|constructor].
  - intros fs IH seen e Hw. cbn [read_ty m_read_ty wf_ty] in *.
    pose proof (fine_record fs _ _ (IH _ (mk_env fs (default_fields fs)) Hw)) as G.
    intros T pk HT Hp. eapply M_weak; [apply G; auto|]. intros a T' x' pk' H. unfold W in *.
    destruct a; cbn [recs heap_ty] in *; auto.
  - intros n fs IH seen e Hw. cbn [read_ty m_read_ty wf_ty] in *.
    pose proof (fine_record fs _ _ (IH _ (mk_env fs (default_fields fs)) Hw)) as G.
    intros T pk HT Hp. eapply M_bind; [apply (fine_rep _ n _ _ G); auto|].
    intros l T' x' pk' [H _]. constructor. exact H.
  - intros fs IH recsz l b seen e Hw. cbn [read_ty m_read_ty wf_ty] in *.
    apply andb_true_iff in Hw. destruct Hw as [Hw _]. apply andb_true_iff in Hw. destruct Hw as [Hw Hr].
    pose proof (fine_record fs _ _ (IH _ (mk_env fs (default_fields fs)) Hw)) as G.
    intros T pk HT Hp.
    destruct (deduce_len c e l) as [len|] eqn:El; [|constructor]. apply deduce_len_nonneg in El.
    destruct (len_allowed _ _ _); [|constructor].
    assert (0 <= len * recsz) by nia. constructor; [auto|].
    eapply M_bind; [apply (fine_rep _ (Z.to_nat len) _ _ G); lia|].
    intros xs T' x' pk' [(E1 & E2 & H1 & H2) Hl]. constructor. unfold W. cbn [heap_ty].
    fold (recs (heap_fields fs)). rewrite sum_cons, Hl, Z2Nat.id by auto.
    repeat split; auto; try lia. constructor; auto.
  - intros b IH p ids seen e Hw T pk HT Hp. cbn [read_ty m_read_ty wf_ty] in *.
    apply andb_true_iff in Hw. destruct Hw as [_ Hw].
    destruct (lookups e ids); [|constructor]. destruct (p l).
    + eapply M_bind; [eapply IH; eauto|]. intros v T1 x1 pk1 (E1 & -> & H1 & H2).
      pose proof (sum_nonneg _ H1). apply M_replace; auto; try lia.
      constructor. unfold W. cbn [heap_ty]. repeat split; auto; lia.
    + constructor. unfold W. cbn [heap_ty]. rewrite sum_nil. repeat split; try lia. constructor.
  - intros g al IH seen e Hw T pk HT Hp. cbn [read_ty m_read_ty wf_ty] in *.
    apply andb_true_iff in Hw. destruct Hw as [_ Hw].
    destruct (deduce_type e g) as [[i|]|]; [|constructor|constructor].
    eapply M_bind; [eapply IH; eauto|]. intros v T1 x1 pk1 H. constructor. exact H.
  - intros seen e _ T pk HT Hp. constructor. unfold W. cbn [heap_fields]. rewrite sum_nil.
    repeat split; try lia. constructor.
  - intros id t IHt k fs IHf seen e Hw T pk HT Hp. cbn [read_fields m_read_fields wf_fields] in *.
    apply andb_true_iff in Hw. destruct Hw as [Hw Hf]. apply andb_true_iff in Hw. destruct Hw as [_ Hw].
    eapply M_bind; [apply M_maperr; apply (fine_rcheck _ k _ _ (IHt _ e Hw)); auto|].
    intros v T1 x1 pk1 (E1 & -> & H1 & H2). pose proof (sum_nonneg _ H1).
    eapply M_bind; [eapply (IHf (id :: seen)); auto; lia|]. intros vs T2 x2 pk2 (E3 & E4 & H3 & H4). constructor.
    unfold W. cbn [heap_fields]. rewrite sum_app. repeat split; auto; try lia. apply Forall_app; auto.
  - intros seen e i _ T pk HT Hp. constructor.
  - intros t IHt k al IHa seen e i Hw. cbn [read_alts m_read_alts wf_alts] in *.
    apply andb_true_iff in Hw. destruct Hw as [Hw Ha]. destruct i as [|i].
    + apply fine_rcheck. exact (IHt _ e Hw).
    + exact (IHa _ e i Ha).
Qed.

End Main.

(** Where a cast ends: there were two copies of everything, one is left. *)
Definition left (fs : fields) (vs : list val) (T x pk : Z) : Prop :=
  T = sum (heap_fields fs vs) /\ x = T /\ pk = 2 * T.

Lemma cast_M c fs : wf fs = true -> M (left fs) 0 0 0 (struct_cast c fs) (m_struct_cast c fs).
Proof.
  intros Hw. apply M_unret. unfold m_struct_cast, struct_cast.
  eapply M_bind; [apply ((proj1 (proj2 (fine_all c))) fs [] _ Hw); lia|].
  intros vs T x pk (E1 & -> & H1 & H2). pose proof (sum_nonneg _ H1).
  apply M_replace; auto; try lia. constructor. unfold left. repeat split; lia.
Qed.

Lemma owned_sum :
  (forall t v, owned t v = sum (heap_ty t v)) /\
  (forall fs vs, owned_fields fs vs = sum (heap_fields fs vs)) /\
  (forall al i v, owned_alt al i v = sum (heap_alts al i v)).
Proof.
  assert (X : forall fs, (forall vs, owned_fields fs vs = sum (heap_fields fs vs)) -> forall xs,
    fold_right Z.add 0 (map (fun x => match x with VRec vs => owned_fields fs vs | _ => 0 end) xs) =
    sum (flat_map (fun x => match x with VRec vs => heap_fields fs vs | _ => [] end) xs)).
  { intros fs H. induction xs as [|x xs IH]; cbn [map flat_map fold_right]; auto.
    rewrite sum_app, IH. destruct x; rewrite ?H, ?sum_nil; auto. }
  apply schema_mutind; intros; cbn [owned owned_fields owned_alt heap_ty heap_fields heap_alts]; auto.
  - destruct v; auto. rewrite sum_cons, sum_nil. unfold bytes_held. lia.
  - destruct v; auto.
  - destruct v; auto.
  - destruct v; auto. rewrite sum_cons, X by auto. reflexivity.
  - destruct v; auto.
  - destruct v; auto.
  - destruct vs; auto. rewrite sum_app, H, H0. reflexivity.
  - destruct i; auto.
Qed.

(** ** Runs *)
Lemma most_nonneg l : 0 <= most l.
Proof. destruct l; simpl; lia. Qed.

Lemma M_run {E A} S L P T x pk (p : rprog E A) q : M P T x pk p q -> 0 <= T -> x <= 2 * T -> x <= pk ->
  forall s a o s1 ev o2 s2 ev2,
  rrun S granting p s = (o, s1, ev) -> mrun S L q s a = (o2, s2, ev2) ->
  0 <= allocated ev /\ x + most (accounts ev2) <= 2 * (T + allocated ev) /\
  (o2 = Throw /\ (exists l, reads_of ev = asked ev2 ++ l) \/
   o2 = o /\ s2 = s1 /\ asked ev2 = reads_of ev /\
   (forall v, o = Ok v ->
      P v (T + allocated ev) (x + in_use (accounts ev2)) (Z.max pk (x + most (accounts ev2))))).
Proof.
  unfold in_use.
  induction 1 as [T x pk v HP|T x pk e|T x pk|T x pk|T x pk n e k k' HR IH|T x pk n p q Hn HR IH|T x pk n p q Hn Hb HR IH|T x pk n p q Hn HR IH];
    intros HT Hx Hk s a o s1 ev o2 s2 ev2 E1 E2; cbn [rrun mrun] in E1, E2.
  1-4: injection E1 as <- <- <-; injection E2 as <- <- <-;
    cbn [allocated asked accounts reads_of filter most fold_right];
    rewrite !Z.add_0_r, ?Z.max_l by lia; repeat split; try lia;
    right; repeat split; auto; intros ? Hv; try discriminate; injection Hv as <-; auto.
  - destruct (i_read S s n) as [[bs|] s'].
    + destruct (rrun S granting (k bs) s') as [[o' t'] ev'] eqn:F1.
      destruct (mrun S L (k' bs) s' a) as [[o2' t2'] ev2'] eqn:F2.
      injection E1 as <- <- <-. injection E2 as <- <- <-.
      destruct (IH bs HT Hx Hk _ _ _ _ _ _ _ _ F1 F2) as (H1 & H2 & H3).
      cbn [allocated asked accounts reads_of filter]. fold (reads_of ev').
      repeat split; auto.
      destruct H3 as [[-> [l Hl]]|(-> & -> & Hr & Hv)]; [left|right].
      * split; auto. exists l. rewrite Hl. reflexivity.
      * repeat split; auto. rewrite Hr. reflexivity.
    + injection E1 as <- <- <-. injection E2 as <- <- <-.
      cbn [allocated asked accounts reads_of filter most]. repeat split; try lia.
      right. repeat split; auto. intros ? Hv. discriminate.
  - unfold granting in E1 at 1.
    destruct (rrun S granting p s) as [[o' t'] ev'] eqn:F1. injection E1 as <- <- <-.
    destruct (p_get L a n) as [a'|].
    + destruct (mrun S L q s a') as [[o2' t2'] ev2'] eqn:F2. injection E2 as <- <- <-.
      destruct (IH ltac:(lia) ltac:(lia) ltac:(lia) _ _ _ _ _ _ _ _ F1 F2) as (H1 & H2 & H3).
      pose proof (most_nonneg (accounts ev2')).
      cbn [allocated asked accounts reads_of filter most fold_right]. fold (reads_of ev').
      repeat split; try lia.
      destruct H3 as [[-> [l Hl]]|(-> & -> & Hr & Hv)]; [left|right].
      * split; auto. exists l. auto.
      * repeat split; auto. intros v Hv'. specialize (Hv v Hv').
        rewrite !Z.add_assoc. replace (Z.max pk (x + Z.max 0 (n + most (accounts ev2'))))
          with (Z.max (Z.max pk (x + n)) (x + n + most (accounts ev2'))) by lia. auto.
    + injection E2 as <- <- <-.
      destruct (mrun S L q s a) as [[o2' t2'] ev2'] eqn:F2.
      destruct (IH ltac:(lia) ltac:(lia) ltac:(lia) _ _ _ _ _ _ _ _ F1 F2) as (H1 & H2 & H3).
      cbn [allocated asked accounts reads_of filter most fold_right]. repeat split; try lia.
      left. split; auto. eexists. reflexivity.
  - destruct (p_get L a n) as [a'|].
    + destruct (mrun S L q s a') as [[o2' t2'] ev2'] eqn:F2. injection E2 as <- <- <-.
      destruct (IH HT Hb ltac:(lia) _ _ _ _ _ _ _ _ E1 F2) as (H1 & H2 & H3).
      pose proof (most_nonneg (accounts ev2')).
      cbn [asked accounts most fold_right].
      repeat split; try lia.
      destruct H3 as [[-> Hl]|(-> & -> & Hr & Hv)]; [left|right]; auto.
      repeat split; auto. intros v Hv'. specialize (Hv v Hv').
      rewrite !Z.add_assoc. replace (Z.max pk (x + Z.max 0 (n + most (accounts ev2'))))
        with (Z.max (Z.max pk (x + n)) (x + n + most (accounts ev2'))) by lia. auto.
    + injection E2 as <- <- <-.
      destruct (mrun S L q s a) as [[o2' t2'] ev2'] eqn:F2.
      destruct (IH HT Hb ltac:(lia) _ _ _ _ _ _ _ _ E1 F2) as (H1 & H2 & H3).
      cbn [asked accounts most]. repeat split; try lia.
      left. split; auto. eexists. reflexivity.
  - destruct (mrun S L q s (p_put L a n)) as [[o2' t2'] ev2'] eqn:F2. injection E2 as <- <- <-.
    destruct (IH HT ltac:(lia) ltac:(lia) _ _ _ _ _ _ _ _ E1 F2) as (H1 & H2 & H3).
    pose proof (most_nonneg (accounts ev2')).
    cbn [asked accounts most fold_right].
    repeat split; try lia.
    destruct H3 as [[-> Hl]|(-> & -> & Hr & Hv)]; [left|right]; auto.
    repeat split; auto. intros v Hv'. specialize (Hv v Hv').
    replace (x + (- n + fold_right Z.add 0 (accounts ev2'))) with (x - n + fold_right Z.add 0 (accounts ev2')) by lia.
    replace (Z.max pk (x + Z.max 0 (- n + most (accounts ev2'))))
      with (Z.max pk (x - n + most (accounts ev2'))) by lia. auto.
Qed.

Lemma plenty_ok S {E A} (q : mprog E A) : forall s, fst (fst (mrun S plenty q s tt)) <> Throw.
Proof.
  induction q as [v|e| | |n e k IH|n k IH|n k IH]; intros s; cbn [mrun]; try discriminate.
  - destruct (i_read S s n) as [[bs|] s']; [|discriminate].
    specialize (IH bs s'). destruct (mrun S plenty (k bs) s' tt) as [[? ?] ?]. auto.
  - cbn [plenty p_get]. specialize (IH s). destruct (mrun S plenty k s tt) as [[? ?] ?]. auto.
  - cbn [plenty p_put]. specialize (IH s). destruct (mrun S plenty k s tt) as [[? ?] ?]. auto.
Qed.

Fixpoint gives_nonneg {E A} (p : mprog E A) : Prop :=
  match p with
  | MRead _ _ k => forall bs, gives_nonneg (k bs)
  | MAlloc n k | MFree n k => 0 <= n /\ gives_nonneg k
  | _ => True
  end.

Lemma M_gives {E A} P T x pk (p : rprog E A) q : M P T x pk p q -> gives_nonneg q.
Proof. induction 1; simpl; auto. Qed.

Lemma room_run S {E A} (q : mprog E A) : gives_nonneg q -> forall s b o s1 ev,
  mrun S plenty q s tt = (o, s1, ev) -> 0 <= b ->
  if most (accounts ev) <=? b then mrun S room q s b = (o, s1, ev)
  else fst (fst (mrun S room q s b)) = Throw.
Proof.
  induction q as [v|e| | |n e k IH|n k IH|n k IH]; intros N s b o s1 ev; cbn [mrun gives_nonneg] in *.
  1-4: intros [= <- <- <-] Hb; cbn [accounts most]; destruct (Z.leb_spec 0 b); auto; lia.
  - destruct (i_read S s n) as [[bs|] s'].
    + destruct (mrun S plenty (k bs) s' tt) as [[o' t'] ev'] eqn:F. intros [= <- <- <-] Hb. cbn [accounts].
      specialize (IH bs (N bs) s' b _ _ _ F Hb). destruct (most (accounts ev') <=? b).
      * rewrite IH. reflexivity.
      * destruct (mrun S room (k bs) s' b) as [[? ?] ?]. auto.
    + intros [= <- <- <-] Hb. cbn [accounts most]. destruct (Z.leb_spec 0 b); auto; lia.
  - destruct N as [N1 N2]. cbn [plenty p_get room].
    destruct (mrun S plenty k s tt) as [[o' t'] ev'] eqn:F. intros [= <- <- <-] Hb.
    cbn [accounts most]. pose proof (most_nonneg (accounts ev')).
    destruct (Z.leb_spec n b).
    + specialize (IH N2 s (b - n) _ _ _ F ltac:(lia)).
      destruct (Z.leb_spec (most (accounts ev')) (b - n));
        destruct (Z.leb_spec (Z.max 0 (n + most (accounts ev'))) b); try lia.
      * rewrite IH. reflexivity.
      * destruct (mrun S room k s (b - n)) as [[? ?] ?]. auto.
    + destruct (Z.leb_spec (Z.max 0 (n + most (accounts ev'))) b); auto. lia.
  - destruct N as [N1 N2]. cbn [plenty p_put room].
    destruct (mrun S plenty k s tt) as [[o' t'] ev'] eqn:F. intros [= <- <- <-] Hb.
    cbn [accounts most].
    specialize (IH N2 s (b + n) _ _ _ F ltac:(lia)).
    destruct (Z.leb_spec (most (accounts ev')) (b + n));
      destruct (Z.leb_spec (Z.max 0 (- n + most (accounts ev'))) b); try lia.
    + rewrite IH. reflexivity.
    + destruct (mrun S room k s (b + n)) as [[? ?] ?]. auto.
Qed.

Section Cast.
Variables (c : cfg) (fs : fields) (S : istream).
Hypothesis Hw : wf fs = true.

Lemma live_all L s a o s1 ev o2 s2 ev2 :
  rrun S granting (struct_cast c fs) s = (o, s1, ev) -> mrun S L (m_struct_cast c fs) s a = (o2, s2, ev2) ->
  0 <= allocated ev /\ 0 + most (accounts ev2) <= 2 * (0 + allocated ev) /\
  (o2 = Throw /\ (exists l, reads_of ev = asked ev2 ++ l) \/
   o2 = o /\ s2 = s1 /\ asked ev2 = reads_of ev /\
   (forall v, o = Ok v ->
      left fs v (0 + allocated ev) (0 + in_use (accounts ev2)) (Z.max 0 (0 + most (accounts ev2))))).
Proof. apply M_run; try lia. apply cast_M. auto. Qed.

Lemma live_run L s a o s1 ev o2 s2 ev2 :
  rrun S granting (struct_cast c fs) s = (o, s1, ev) -> mrun S L (m_struct_cast c fs) s a = (o2, s2, ev2) ->
  o2 = Throw /\ (exists l, reads_of ev = asked ev2 ++ l) \/
  o2 = o /\ s2 = s1 /\ asked ev2 = reads_of ev.
Proof.
  intros E1 E2. destruct (live_all _ _ _ _ _ _ _ _ _ E1 E2) as (_ & _ & [H|(? & ? & ? & _)]); auto.
Qed.

Lemma live_bound L s a o s1 ev : mrun S L (m_struct_cast c fs) s a = (o, s1, ev) ->
  most (accounts ev) <= 2 * total_fields c (own_memory c) fs.
Proof.
  intros E2. destruct (rrun S granting (struct_cast c fs) s) as [[o' s1'] ev'] eqn:E1.
  pose proof (memory_bound _ _ _ _ _ _ _ _ Hw E1).
  destruct (live_all _ _ _ _ _ _ _ _ _ E1 E2) as (_ & H1 & _). lia.
Qed.

Lemma live_exact L s a vs s1 ev : mrun S L (m_struct_cast c fs) s a = (Ok vs, s1, ev) ->
  in_use (accounts ev) = owned_fields fs vs /\ most (accounts ev) = 2 * owned_fields fs vs.
Proof.
  intros E2. destruct (rrun S granting (struct_cast c fs) s) as [[o' s1'] ev'] eqn:E1.
  destruct (live_all _ _ _ _ _ _ _ _ _ E1 E2) as (_ & _ & [[H _]|(<- & _ & _ & H)]); [discriminate|].
  destruct (H vs eq_refl) as (H1 & H2 & H3). pose proof (most_nonneg (accounts ev)).
  rewrite (proj1 (proj2 owned_sum)). lia.
Qed.

Lemma live_plenty s : exists o s1 ev ev2,
  rrun S granting (struct_cast c fs) s = (o, s1, ev) /\
  mrun S plenty (m_struct_cast c fs) s tt = (o, s1, ev2) /\ o <> Throw.
Proof.
  destruct (rrun S granting (struct_cast c fs) s) as [[o s1] ev] eqn:E1.
  destruct (mrun S plenty (m_struct_cast c fs) s tt) as [[o2 s2] ev2] eqn:E2.
  pose proof (plenty_ok S (m_struct_cast c fs) s) as G. rewrite E2 in G. cbn [fst] in G.
  destruct (live_run _ _ _ _ _ _ _ _ _ E1 E2) as [[-> _]|(-> & -> & _)]; [congruence|].
  exists o, s1, ev, ev2. auto.
Qed.

Lemma live_room s vs s1 ev b : 0 <= b ->
  rrun S granting (struct_cast c fs) s = (Ok vs, s1, ev) ->
  fst (fst (mrun S room (m_struct_cast c fs) s b)) =
    if 2 * owned_fields fs vs <=? b then Ok vs else Throw.
Proof.
  intros Hb E1. destruct (live_plenty s) as (o & t & ev' & ev2 & F1 & F2 & Ho).
  rewrite E1 in F1. injection F1 as <- <- <-.
  pose proof (room_run S _ (M_gives _ _ _ _ _ _ (cast_M c fs Hw)) _ _ _ _ _ F2 Hb) as H.
  apply live_exact in F2. destruct F2 as [_ F2]. rewrite F2 in H.
  destruct (_ <=? b); auto. rewrite H. auto.
Qed.

Lemma live_enough s b : 2 * total_fields c (own_memory c) fs <= b ->
  forall o s1 ev, rrun S granting (struct_cast c fs) s = (o, s1, ev) ->
  fst (mrun S room (m_struct_cast c fs) s b) = (o, s1).
Proof.
  intros Hb o s1 ev E1. destruct (live_plenty s) as (o' & t & ev' & ev2 & F1 & F2 & Ho).
  rewrite E1 in F1. injection F1 as <- <- <-.
  pose proof (live_bound _ _ _ _ _ _ F2). pose proof (most_nonneg (accounts ev2)).
  assert (Hb' : 0 <= b) by lia.
  pose proof (room_run S _ (M_gives _ _ _ _ _ _ (cast_M c fs Hw)) _ _ _ _ _ F2 Hb') as H1.
  destruct (Z.leb_spec (most (accounts ev2)) b); [|lia]. rewrite H1. auto.
Qed.

End Cast.

(** ** The same requests as in Copies.v *)
Inductive D {E A} : rprog E A -> mprog E A -> Prop :=
| D_ret a : D (RRet a) (MRet a)
| D_err e : D (RErr e) (MErr e)
| D_ub : D RUB MUB
| D_stuck : D RStuck MStuck
| D_read n e k k' : (forall bs, D (k bs) (k' bs)) -> D (RRead n e k) (MRead n e k')
| D_alloc n p q : D p q -> D (RAlloc n p) (MAlloc n q)
| D_free n p q : D p q -> D p (MFree n q).

Lemma D_bind {E A B} (f : A -> rprog E B) (f' : A -> mprog E B) p q :
  D p q -> (forall a, D (f a) (f' a)) -> D (rbind p f) (mbind q f').
Proof. induction 1; intros Hf; simpl; try constructor; auto. Qed.

Lemma D_maperr {E E' A} (g : E -> E') (p : rprog E A) q : D p q -> D (rmaperr g p) (mmaperr g q).
Proof. induction 1; simpl; constructor; auto. Qed.

Lemma D_rep {E A} n (p : rprog E A) q : D p q -> D (rrep n p) (mrep n q).
Proof.
  intros H. induction n; simpl; [constructor|].
  apply D_bind; auto. intros a. apply D_bind; auto. intros l. constructor.
Qed.

Lemma D_lift {E A} (p : rprog E A) : D p (lift p).
Proof. induction p; simpl; constructor; auto. Qed.

Lemma D_replace {E A} l (p : rprog E A) q : D p q -> D (copying l p) (mreplace l q).
Proof.
  intros H. unfold mreplace.
  assert (X : D p (mdrop l q)) by (unfold mdrop; induction l; simpl; [auto|constructor; auto]).
  revert X. generalize (mdrop l q). clear. intros q X.
  unfold copying, mcopy. induction l; simpl; auto. constructor. auto.
Qed.

Lemma D_record fs p q : D p q -> D (cp_record fs p) (m_record fs q).
Proof.
  intros H. unfold cp_record, m_record. apply D_bind.
  - apply D_maperr. apply D_bind; auto. intros vs. apply D_replace. constructor.
  - intros vs. apply D_replace. constructor.
Qed.

Lemma D_all c :
  (forall t e, D (cp_read_ty c e t) (m_read_ty c e t)) /\
  (forall fs e, D (cp_read_fields c e fs) (m_read_fields c e fs)) /\
  (forall al e i, D (cp_read_alts c e al i) (m_read_alts c e al i)).
Proof.
  apply schema_mutind; intros; cbn [cp_read_ty m_read_ty cp_read_fields m_read_fields cp_read_alts m_read_alts].
  - apply D_lift.
  - destruct (deduce_len c e l); [apply D_lift|constructor].
  - apply D_record. auto.
  - apply D_bind; [|constructor]. apply D_rep, D_record. auto.
  - destruct (deduce_len c e l); [|constructor]. destruct (len_allowed _ _ _); [|constructor].
    constructor. apply D_bind; [|constructor]. apply D_rep, D_record. auto.
  - destruct (lookups e _); [|constructor]. destruct (p _); [|constructor].
    apply D_bind; auto. intros v. apply D_replace. constructor.
  - destruct (deduce_type e g) as [[i|]|]; [|constructor|constructor].
    apply D_bind; auto. intros v. constructor.
  - constructor.
  - apply D_bind.
    + apply D_maperr, D_bind; auto. intros v. apply D_lift.
    + intros v. apply D_bind; auto. intros vs. constructor.
  - constructor.
  - destruct i; auto. apply D_bind; auto. intros v. apply D_lift.
Qed.

Lemma D_run {E A} S (p : rprog E A) q : D p q -> forall s o s1 ev,
  mrun S plenty q s tt = (o, s1, ev) -> exists ev',
  rrun S granting p s = (o, s1, ev') /\ taken ev = blocks_of ev' /\ asked ev = reads_of ev'.
Proof.
  induction 1; intros s o s1 ev; cbn [mrun rrun].
  1-4: intros [= <- <- <-]; eexists; repeat split; reflexivity.
  - destruct (i_read S s n) as [[bs|] s'].
    + destruct (mrun S plenty (k' bs) s' tt) as [[? ?] ?] eqn:F. intros [= <- <- <-].
      destruct (H0 _ _ _ _ _ F) as (ev' & -> & H1 & H2). eexists. split; [reflexivity|].
      cbn [taken asked blocks_of reads_of filter]. fold (reads_of ev'). rewrite H1, H2. auto.
    + intros [= <- <- <-]. eexists. repeat split; reflexivity.
  - cbn [plenty p_get]. unfold granting at 1.
    destruct (mrun S plenty q s tt) as [[? ?] ?] eqn:F. intros [= <- <- <-].
    destruct (IHD _ _ _ _ F) as (ev' & -> & H1 & H2). eexists. split; [reflexivity|].
    cbn [taken asked blocks_of reads_of filter]. fold (reads_of ev'). rewrite H1, H2. auto.
  - cbn [plenty p_put]. destruct (mrun S plenty q s tt) as [[? ?] ?] eqn:F. intros [= <- <- <-].
    destruct (IHD _ _ _ _ F) as (ev' & -> & H1 & H2). eexists. split; [reflexivity|]. auto.
Qed.

Lemma live_copies c fs S s o s1 ev : mrun S plenty (m_struct_cast c fs) s tt = (o, s1, ev) ->
  exists ev', rrun S granting (cp_struct_cast c fs) s = (o, s1, ev') /\
    taken ev = blocks_of ev' /\ asked ev = reads_of ev'.
Proof.
  apply D_run. unfold cp_struct_cast, m_struct_cast. apply D_bind.
  - apply (proj1 (proj2 (D_all c))).
  - intros vs. apply D_replace. constructor.
Qed.

(** ** Schemas without containers *)
Lemma flat_total c :
  (forall t, flat t = true -> total c (own_memory c) t = 0) /\
  (forall fs, flat_fields fs = true -> total_fields c (own_memory c) fs = 0) /\
  (forall al, flat_alts al = true -> total_alts c (own_memory c) al = 0).
Proof.
  apply schema_mutind; cbn [flat flat_fields flat_alts total total_fields total_alts own_memory]; intros;
    repeat match goal with H : _ && _ = true |- _ => apply andb_true_iff in H; destruct H end;
    try discriminate; auto.
  - rewrite H by auto. lia.
  - rewrite H, H0 by auto. lia.
  - rewrite H, H0 by auto. lia.
Qed.

Lemma flat_heap :
  (forall t v, flat t = true -> heap_ty t v = []) /\
  (forall fs vs, flat_fields fs = true -> heap_fields fs vs = []) /\
  (forall al i v, flat_alts al = true -> heap_alts al i v = []).
Proof.
  apply schema_mutind; intros; cbn [flat flat_fields flat_alts heap_ty heap_fields heap_alts] in *;
    repeat match goal with H : _ && _ = true |- _ => apply andb_true_iff in H; destruct H end;
    try discriminate; auto.
  - destruct v; auto.
  - destruct v; auto. induction l as [|x l IH]; cbn [flat_map]; auto. rewrite IH. destruct x; auto.
    rewrite H by auto. auto.
  - destruct v; auto.
  - destruct v; auto.
  - destruct vs; auto. rewrite H, H0 by auto. auto.
  - destruct i; auto.
Qed.

(** No request at all. *)
Fixpoint quiet {E A} (q : mprog E A) : Prop :=
  match q with
  | MRead _ _ k => forall bs, quiet (k bs)
  | MAlloc _ _ | MFree _ _ => False
  | _ => True
  end.

Lemma quiet_bind {E A B} (q : mprog E A) (f : A -> mprog E B) :
  quiet q -> (forall a, quiet (f a)) -> quiet (mbind q f).
Proof. induction q; simpl; auto. Qed.
Lemma quiet_maperr {E E' A} (g : E -> E') (q : mprog E A) : quiet q -> quiet (mmaperr g q).
Proof. induction q; simpl; auto. Qed.
Lemma quiet_rep {E A} n (q : mprog E A) : quiet q -> quiet (mrep n q).
Proof. intros H. induction n; simpl; auto. apply quiet_bind; auto. intros a. apply quiet_bind; simpl; auto. Qed.
Lemma quiet_lift {E A} (p : rprog E A) : silent p -> quiet (lift p).
Proof. induction p; simpl; auto. Qed.
Lemma quiet_rcheck k v : quiet (lift (rcheck k v)).
Proof. unfold rcheck. destruct (check k v); simpl; auto. Qed.

Lemma quiet_record fs q : flat_fields fs = true -> quiet q -> quiet (m_record fs q).
Proof.
  intros F H. unfold m_record. apply quiet_bind.
  - apply quiet_maperr, quiet_bind; auto. intros vs. rewrite (proj1 (proj2 flat_heap)) by auto. simpl. auto.
  - intros vs. rewrite (proj1 (proj2 flat_heap)) by auto. simpl. auto.
Qed.

Lemma quiet_all c :
  (forall t e, flat t = true -> quiet (m_read_ty c e t)) /\
  (forall fs e, flat_fields fs = true -> quiet (m_read_fields c e fs)) /\
  (forall al e i, flat_alts al = true -> quiet (m_read_alts c e al i)).
Proof.
  apply schema_mutind; intros; cbn [flat flat_fields flat_alts m_read_ty m_read_fields m_read_alts] in *;
    repeat match goal with H : _ && _ = true |- _ => apply andb_true_iff in H; destruct H end;
    try discriminate; try exact I.
  - apply quiet_lift. unfold read_fixed. destruct (Nat.ltb _ _); simpl; auto.
    intros bs. destruct (load _ _ _); simpl; auto.
  - apply quiet_record; auto.
  - apply quiet_bind; [|simpl; auto]. apply quiet_rep, quiet_record; auto.
  - destruct (lookups e _); [|exact I]. destruct (p _); [|exact I].
    apply quiet_bind; auto. intros v. rewrite (proj1 flat_heap) by auto. simpl. auto.
  - destruct (deduce_type e g) as [[i|]|]; try exact I. apply quiet_bind; simpl; auto.
  - apply quiet_bind.
    + apply quiet_maperr, quiet_bind; auto. intros v. apply quiet_rcheck.
    + intros v. apply quiet_bind; simpl; auto.
  - destruct i; auto. apply quiet_bind; auto. intros v. apply quiet_rcheck.
Qed.

Lemma quiet_run S L {E A} (q : mprog E A) : quiet q -> forall s a o s1 ev,
  mrun S L q s a = (o, s1, ev) -> accounts ev = [].
Proof.
  induction q as [v|e| | |n e k IH|n k IH|n k IH]; intros N s a o s1 ev; cbn [mrun quiet] in *; try contradiction.
  1-4: intros [= <- <- <-]; reflexivity.
  destruct (i_read S s n) as [[bs|] s'].
  - destruct (mrun S L (k bs) s' a) as [[? ?] ?] eqn:F. intros [= <- <- <-]. cbn [accounts]. eauto.
  - intros [= <- <- <-]. reflexivity.
Qed.

Lemma live_flat c fs S L s a o s1 ev : flat_fields fs = true ->
  mrun S L (m_struct_cast c fs) s a = (o, s1, ev) -> accounts ev = [].
Proof.
  intros F. apply quiet_run. unfold m_struct_cast. apply quiet_bind.
  - apply (proj1 (proj2 (quiet_all c))). auto.
  - intros vs. rewrite (proj1 (proj2 flat_heap)) by auto. simpl. auto.
Qed.
