(** * Compile-time containers and tables: lemmas *)
From Coq Require Import String Permutation ZifyBool ZifyNat.
From Verif Require Import Static StaticSpec BytesFacts.
Local Open Scope list_scope.

(** ** Sorting *)

Section Sort.
Context {A : Type} (less : A -> A -> bool).

Lemma sort_pass_perm l : forall x, Permutation (sort_pass less x l) (x :: l).
Proof.
  induction l as [|y l IH]; intros x; simpl; [constructor; constructor|].
  destruct (less y x).
  - eapply perm_trans; [apply perm_skip, IH|apply perm_swap].
  - apply perm_skip, IH.
Qed.

Lemma sort_once_perm l : Permutation (sort_once less l) l.
Proof. destruct l; simpl; [constructor|apply sort_pass_perm]. Qed.

Lemma sort_perm l : Permutation (sort_ranges less l) l.
Proof.
  unfold sort_ranges. generalize (length l) as n. induction n as [|n IH]; simpl; [apply Permutation_refl|].
  eapply perm_trans; [apply sort_once_perm|apply IH].
Qed.

Definition leq (x y : A) : Prop := less y x = false.

Hypothesis trans : forall x y z, leq x y -> leq y z -> leq x z.
Hypothesis total : forall x y, less x y = true -> leq x y.

Lemma leq_refl x : leq x x.
Proof. unfold leq. destruct (less x x) eqn:E; auto. apply total in E as E'. unfold leq in E'. congruence. Qed.

Lemma forall_perm (P : A -> Prop) l l' : Permutation l l' -> Forall P l -> Forall P l'.
Proof. intros HP H. eapply Permutation_Forall; eauto. Qed.

(** One pass carries a maximum to the end. *)
Lemma sort_pass_max l : forall x, exists pre m, sort_pass less x l = pre ++ [m] /\
  Forall (fun y => leq y m) (x :: l).
Proof.
  induction l as [|y l IH]; intros x; simpl.
  - exists [], x. repeat constructor. apply leq_refl.
  - destruct (less y x) eqn:E.
    + destruct (IH x) as (pre & m & -> & H). exists (y :: pre), m. split; auto.
      inversion H; subst. repeat constructor; auto. eapply trans; [apply total, E|auto].
    + destruct (IH y) as (pre & m & -> & H). exists (x :: pre), m. split; auto.
      inversion H; subst. repeat constructor; auto. eapply trans; [apply E|auto].
Qed.

Lemma sort_pass_app l b : ascending leq b -> forall x, Forall (fun y => Forall (leq y) b) (x :: l) ->
  sort_pass less x (l ++ b) = sort_pass less x l ++ b.
Proof.
  intros Hb. induction l as [|y l IH]; intros x Hx; simpl.
  - inversion Hx as [|? ? Hxb _]; subst. clear Hx.
    revert x Hxb. induction Hb as [|y b Hy Hb IHb]; intros x Hxb; simpl; auto.
    inversion Hxb as [|? ? H1 H2]; subst. unfold leq in H1. rewrite H1. f_equal.
    apply IHb; auto.
  - inversion Hx as [|? ? Hxb Hr]; subst. inversion Hr as [|? ? Hyb Hl]; subst.
    destruct (less y x); simpl; f_equal; apply IH; constructor; auto.
Qed.

Lemma sort_steps n l : (n <= length l)%nat -> exists a b,
  Nat.iter n (sort_once less) l = a ++ b /\ length b = n /\ ascending leq b /\
  Forall (fun y => Forall (leq y) b) a.
Proof.
  induction n as [|n IH]; intros Hn.
  - exists l, []. simpl. rewrite app_nil_r. split; [auto|split; [auto|split; [constructor|]]].
    clear. induction l; constructor; auto.
  - destruct IH as (a & b & E & Lb & Hb & Ha); [lia|]. simpl. rewrite E.
    assert (Permutation (a ++ b) l) as HP.
    { rewrite <- E. clear. induction n; simpl; [apply Permutation_refl|].
      eapply perm_trans; [apply sort_once_perm|auto]. }
    apply Permutation_length in HP. rewrite app_length in HP.
    destruct a as [|x a]; [simpl in HP; lia|]. simpl. rewrite sort_pass_app; auto.
    destruct (sort_pass_max a x) as (pre & m & Em & Hm).
    exists pre, (m :: b).
    assert (Permutation (pre ++ [m]) (x :: a)) as HQ by (rewrite <- Em; apply sort_pass_perm).
    assert (Forall (fun y => Forall (leq y) b) (pre ++ [m])) as H1.
    { eapply forall_perm; [apply Permutation_sym, HQ|auto]. }
    assert (Forall (fun y => leq y m) (pre ++ [m])) as H2.
    { eapply forall_perm; [apply Permutation_sym, HQ|auto]. }
    apply Forall_app in H1. destruct H1 as (H1 & H1'). inversion H1'; subst.
    apply Forall_app in H2. destruct H2 as (H2 & _).
    rewrite Em, <- app_assoc. split; [auto|split; [simpl; auto|split; [constructor; auto|]]].
    rewrite Forall_forall in *. intros y Hy. constructor; auto.
Qed.

Lemma sort_ascending l : ascending leq (sort_ranges less l).
Proof.
  unfold sort_ranges. destruct (sort_steps (length l) l) as (a & b & E & Lb & Hb & _); [lia|].
  assert (length (a ++ b) = length l) as HL.
  { rewrite <- E. apply Permutation_length, sort_perm. }
  rewrite app_length in HL. destruct a; [|simpl in HL; lia]. rewrite E. auto.
Qed.
End Sort.

(** ** Searching *)

Fixpoint assoc {V} (m : list (ident * V)) (key : ident) : option V :=
  match m with
  | [] => None
  | (k, v) :: m' => if String.eqb k key then Some v else assoc m' key
  end.

Lemma find_from {A} (p : A -> bool) ts : forall i,
  (i <= find_index_from p i ts <= i + length ts)%nat /\
  (find_index_from p i ts = (i + length ts)%nat <-> forallb (fun x => negb (p x)) ts = true).
Proof.
  induction ts as [|t ts IH]; intros i; simpl; [split; [lia|split; [auto|lia]]|].
  destruct (p t); simpl; [split; [lia|split; [lia|discriminate]]|].
  destruct (IH (S i)) as (H1 & H2). split; [lia|]. rewrite <- H2. lia.
Qed.

Lemma find_shift {A} (p : A -> bool) ts : forall i, find_index_from p (S i) ts = S (find_index_from p i ts).
Proof. induction ts as [|t ts IH]; intros i; simpl; auto. destruct (p t); auto. Qed.

Lemma map_get_assoc {V} (m : list (ident * V)) key : map_get m key = assoc m key.
Proof.
  unfold map_get, find_index_if. induction m as [|[k v] m IH]; simpl; auto.
  destruct (String.eqb k key); simpl; auto. rewrite find_shift. simpl. auto.
Qed.

Fixpoint put_in {V} (m : list (ident * V)) (e : ident * V) : list (ident * V) :=
  match m with
  | [] => [e]
  | (k, v) :: m' => if String.eqb k (fst e) then (k, snd e) :: m' else (k, v) :: put_in m' e
  end.

Lemma map_put_in {V} (m : list (ident * V)) e : map_put m e = put_in m e.
Proof.
  unfold map_put, find_index_if. induction m as [|[k v] m IH]; simpl; auto.
  destruct (String.eqb k (fst e)); simpl; auto. rewrite find_shift. simpl.
  rewrite <- IH. destruct (Nat.eqb _ (length m)); auto.
Qed.

Lemma assoc_put {V} (m : list (ident * V)) e key :
  assoc (put_in m e) key = if String.eqb (fst e) key then Some (snd e) else assoc m key.
Proof.
  induction m as [|[k v] m IH]; simpl.
  - destruct e as [k v]; simpl. destruct (String.eqb k key); auto.
  - destruct (String.eqb_spec k (fst e)); simpl.
    + subst k. destruct (String.eqb (fst e) key); auto.
    + rewrite IH. destruct (String.eqb_spec k key); auto.
      destruct (String.eqb_spec (fst e) key); auto. congruence.
Qed.

Lemma assoc_app {V} (a b : list (ident * V)) key :
  assoc (a ++ b) key = match assoc a key with Some v => Some v | None => assoc b key end.
Proof. induction a as [|[k v] a IH]; simpl; auto. destruct (String.eqb k key); auto. Qed.

Lemma assoc_fold {V} (es : list (ident * V)) : forall m key,
  assoc (fold_left map_put es m) key =
  match assoc (rev es) key with Some v => Some v | None => assoc m key end.
Proof.
  induction es as [|e es IH]; intros m key; simpl; auto.
  rewrite IH, map_put_in, assoc_put, assoc_app. destruct (assoc (rev es) key); auto.
  destruct e as [k v]; simpl. destruct (String.eqb k key); auto.
Qed.

Lemma put_keys {V} (m : list (ident * V)) e :
  map fst (put_in m e) = if existsb (String.eqb (fst e)) (map fst m) then map fst m
                         else map fst m ++ [fst e].
Proof.
  induction m as [|[k v] m IH]; simpl; auto.
  rewrite (String.eqb_sym (fst e) k). destruct (String.eqb_spec k (fst e)); simpl; auto.
  rewrite IH. destruct (existsb _ _); auto.
Qed.

Lemma existsb_eqb_in id l : existsb (String.eqb id) l = true <-> In id l.
Proof.
  rewrite existsb_exists. split.
  - intros (x & H & E). apply String.eqb_eq in E. subst. auto.
  - intros H. exists id. split; auto. apply String.eqb_refl.
Qed.

Lemma nodup_snoc {A} (l : list A) x : NoDup l -> ~ In x l -> NoDup (l ++ [x]).
Proof.
  induction l as [|y l IH]; simpl; intros H HN; [constructor; auto; constructor|].
  inversion H; subst. constructor; [|apply IH; tauto].
  rewrite in_app_iff. simpl. intros [?|[?|[]]]; subst; tauto.
Qed.

Lemma fold_nodup {V} (es : list (ident * V)) : forall m, NoDup (map fst m) ->
  NoDup (map fst (fold_left map_put es m)).
Proof.
  induction es as [|e es IH]; intros m H; simpl; auto. apply IH. rewrite map_put_in, put_keys.
  destruct (existsb _ _) eqn:E; auto. apply nodup_snoc; auto.
  intros Hin. apply existsb_eqb_in in Hin. congruence.
Qed.

Lemma assoc_in {V} (m : list (ident * V)) key v : NoDup (map fst m) ->
  (assoc m key = Some v <-> In (key, v) m).
Proof.
  induction m as [|[k w] m IH]; simpl; intros H; [split; [congruence|tauto]|].
  inversion H as [|? ? H1 H2]; subst. destruct (String.eqb_spec k key).
  - subst k. split.
    + intros E. left. congruence.
    + intros [E|E]; [congruence|]. exfalso. apply H1. apply in_map_iff. exists (key, v). auto.
  - rewrite IH; auto. split; [auto|]. intros [E|E]; [congruence|auto].
Qed.

Lemma assoc_none {V} (m : list (ident * V)) key : assoc m key = None <-> ~ In key (map fst m).
Proof.
  induction m as [|[k w] m IH]; simpl; [tauto|]. destruct (String.eqb_spec k key).
  - split; [congruence|]. intros H. exfalso. auto.
  - rewrite IH. tauto.
Qed.

Lemma assoc_perm {V} (m m' : list (ident * V)) key : Permutation m m' -> NoDup (map fst m) ->
  assoc m key = assoc m' key.
Proof.
  intros HP HN.
  assert (NoDup (map fst m')) as HN' by (eapply Permutation_NoDup; [apply Permutation_map, HP|auto]).
  destruct (assoc m key) as [v|] eqn:E.
  - symmetry. apply assoc_in; auto. apply assoc_in in E; auto. eapply Permutation_in; eauto.
  - symmetry. apply assoc_none. apply assoc_none in E. intros H. apply E.
    eapply Permutation_in; [apply Permutation_sym, Permutation_map, HP|auto].
Qed.

(** ** The map *)

Lemma map_facts {V} N (zero : V) es m : static_map N zero es = Some m ->
  (length es <= N)%nat /\ NoDup (map fst m) /\
  forall key, map_get m key =
    match assoc (rev (repeat (EmptyString, zero) (N - length es))) key with
    | Some v => Some v
    | None => assoc (rev es) key
    end.
Proof.
  unfold static_map. destruct (Nat.ltb N (length es)) eqn:E; [discriminate|]. intros H.
  injection H as <-. split; [lia|].
  set (r := fold_left map_put (es ++ _) []).
  assert (NoDup (map fst r)) as HN by (apply fold_nodup; constructor).
  split.
  - eapply Permutation_NoDup; [apply Permutation_map, Permutation_sym, sort_perm|auto].
  - intros key. rewrite map_get_assoc.
    rewrite (assoc_perm (sort_ranges key_less r) r); [|apply sort_perm|].
    2: { eapply Permutation_NoDup; [apply Permutation_map, Permutation_sym, sort_perm|auto]. }
    unfold r. rewrite assoc_fold, rev_app_distr, assoc_app. simpl.
    assert (forall o : option V, match o with Some v => Some v | None => None end = o) as EO
      by (destruct o; auto).
    apply EO.
Qed.

Lemma rev_repeat {A} (x : A) n : rev (repeat x n) = repeat x n.
Proof.
  induction n as [|n IH]; simpl; auto. rewrite IH. clear IH.
  induction n as [|n IH]; simpl; auto. rewrite IH. auto.
Qed.

Lemma assoc_repeat {V} (zero : V) n key : assoc (repeat (EmptyString, zero) n) key =
  if (Nat.ltb 0 n && String.eqb EmptyString key)%bool then Some zero else None.
Proof.
  induction n as [|n IH]; auto. cbn [repeat assoc]. destruct (String.eqb EmptyString key) eqn:E; auto.
  rewrite IH. rewrite Bool.andb_false_r. auto.
Qed.

Lemma map_lookup {V} N (zero : V) es m key : static_map N zero es = Some m -> NoDup (map fst es) ->
  map_get m key = if (Nat.ltb (length es) N && String.eqb EmptyString key)%bool
                  then Some zero else assoc es key.
Proof.
  intros H HN. apply map_facts in H. destruct H as (HL & _ & H). rewrite H, rev_repeat, assoc_repeat.
  replace (Nat.ltb 0 (N - length es)) with (Nat.ltb (length es) N) by lia.
  destruct (_ && _)%bool; auto. symmetry. apply assoc_perm; auto. apply Permutation_rev.
Qed.

(** ** Uniqueness *)

Section Unique.
Context {A : Type} (eqb : A -> A -> bool) (eqb_eq : forall x y, eqb x y = true <-> x = y).

Lemma find_index_mem l v : Nat.eqb (find_index eqb l v) (length l) = true <-> ~ In v l.
Proof.
  unfold find_index, find_index_if. pose proof (find_from (fun x => eqb x v) l 0) as (H1 & H2).
  rewrite Nat.eqb_eq. simpl in H2. rewrite H2, forallb_forall. split.
  - intros H Hin. apply H in Hin. assert (eqb v v = true) by (apply eqb_eq; auto).
    rewrite H0 in Hin. discriminate.
  - intros H x Hx. destruct (eqb x v) eqn:E; auto. apply eqb_eq in E. subst. tauto.
Qed.

Lemma insert_all_facts N vs : forall l, NoDup l -> (length l + length vs <= N)%nat ->
  exists r, set_insert_all eqb N l vs = Some r /\ NoDup r /\ incl l r /\ incl vs r /\ incl r (l ++ vs) /\
    (length r <= length l + length vs)%nat /\ exists w, r = l ++ w /\ (NoDup (l ++ vs) -> w = vs).
Proof.
  induction vs as [|v vs IH]; intros l HN HL.
  - exists l. simpl. rewrite !app_nil_r. split; [auto|]. split; [auto|]. split; [apply incl_refl|].
    split; [intros x []|]. split; [apply incl_refl|]. split; [lia|]. exists []. rewrite app_nil_r. auto.
  - cbn [set_insert_all]. unfold set_insert.
    destruct (Nat.eqb (find_index eqb l v) (length l)) eqn:E.
    + apply find_index_mem in E. unfold push_back. simpl in HL.
      replace (Nat.ltb (length l) N) with true by (symmetry; apply Nat.ltb_lt; lia).
      destruct (IH (l ++ [v])) as (r & Er & Hr & I1 & I2 & I3 & L & w & Ew & Hw).
      { apply nodup_snoc; auto. }
      { rewrite app_length. simpl. lia. }
      exists r. split; [auto|]. split; [auto|]. split.
      { intros x Hx. apply I1. rewrite in_app_iff. auto. }
      split. { intros x [Hx|Hx]; [apply I1; rewrite in_app_iff; subst; simpl; auto|auto]. }
      split. { intros x Hx. apply I3 in Hx. rewrite <- app_assoc in Hx. auto. }
      split. { rewrite app_length in L. simpl in *. lia. }
      exists (v :: w). rewrite <- app_assoc in Ew. split; auto. intros HNN.
      f_equal. apply Hw. rewrite <- app_assoc. auto.
    + destruct (IH l) as (r & Er & Hr & I1 & I2 & I3 & L & w & Ew & Hw); auto.
      { simpl in HL. lia. }
      assert (In v l) as Hin.
      { destruct (existsb (eqb v) l) eqn:Ex.
        - apply existsb_exists in Ex. destruct Ex as (x & Hx & Ee). apply eqb_eq in Ee. subst. auto.
        - exfalso. assert (~ In v l) as HH.
          { intros Hi. assert (existsb (eqb v) l = true); [|congruence].
            apply existsb_exists. exists v. split; auto. apply eqb_eq. auto. }
          apply find_index_mem in HH. congruence. }
      exists r. split; [auto|]. split; [auto|]. split; [auto|]. split.
      { intros x [Hx|Hx]; [subst; auto|auto]. }
      split. { intros x Hx. apply I3 in Hx. rewrite in_app_iff in *. simpl. tauto. }
      split; [simpl; lia|]. exists w. split; auto. intros HNN. exfalso.
      apply NoDup_remove_2 in HNN. apply HNN. rewrite in_app_iff. auto.
Qed.

Lemma equal_items_eq xs : forall ys, length xs = length ys ->
  (equal_items eqb xs ys = true <-> xs = ys).
Proof.
  induction xs as [|x xs IH]; intros [|y ys] HL; simpl in *; try discriminate; [tauto|].
  destruct (eqb x y) eqn:E; simpl.
  - apply eqb_eq in E. subst. rewrite IH; [|lia]. split; [congruence|]. intros H. congruence.
  - split; [discriminate|]. intros H. injection H as -> ->.
    assert (eqb y y = true) by (apply eqb_eq; auto). congruence.
Qed.

Lemma equal_ranges_eq xs ys : equal_ranges eqb xs ys = true <-> xs = ys.
Proof.
  unfold equal_ranges. destruct (Nat.eqb (length xs) (length ys)) eqn:E; simpl.
  - apply equal_items_eq. lia.
  - split; [discriminate|]. intros ->. rewrite Nat.eqb_refl in E. discriminate.
Qed.

Lemma unique_iff l : exists b, are_unique eqb l = Some b /\ (b = true <-> NoDup l).
Proof.
  unfold are_unique, static_set.
  destruct (insert_all_facts (length l) l []) as (r & -> & Hr & _ & _ & _ & _ & w & Ew & Hw);
    [constructor|simpl; lia|].
  eexists. split; [reflexivity|]. rewrite equal_ranges_eq. simpl in *. subst w. split.
  - intros ->. auto.
  - intros H. symmetry. auto.
Qed.

Lemma set_facts N vs : (length vs <= N)%nat -> exists r, static_set eqb N vs = Some r /\
  NoDup r /\ (forall x, In x r <-> In x vs) /\ (length r <= length vs)%nat.
Proof.
  intros HL. destruct (insert_all_facts N vs []) as (r & E & HN & _ & I2 & I3 & L & _);
    [constructor|simpl; lia|].
  exists r. split; [auto|]. split; [auto|]. split; [|auto]. intros x. split; auto.
Qed.
End Unique.

Lemma push_all_app {A} N (vs : list A) : forall l, push_all N l vs =
  if Nat.leb (length vs) (N - length l) then Some (l ++ vs) else None.
Proof.
  induction vs as [|v vs IH]; intros l; simpl; [rewrite app_nil_r; auto|].
  unfold push_back. destruct (Nat.ltb (length l) N) eqn:E.
  - rewrite IH, app_length, <- app_assoc. simpl.
    replace (Nat.leb (length vs) (N - (length l + 1))) with
      (match (N - length l)%nat with 0%nat => false | S m => Nat.leb (length vs) m end); auto.
    apply Nat.ltb_lt in E. destruct (N - length l)%nat eqn:E2; [lia|].
    replace (N - (length l + 1))%nat with n by lia. auto.
  - apply Nat.ltb_ge in E. replace (N - length l)%nat with 0%nat by lia. auto.
Qed.

Lemma static_vector_eq {A} N (vs : list A) :
  static_vector N vs = if Nat.leb (length vs) N then Some vs else None.
Proof. unfold static_vector. rewrite push_all_app. simpl. rewrite Nat.sub_0_r. auto. Qed.
