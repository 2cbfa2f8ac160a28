(** Range constraints: facts. *)
From Coq Require Import Lia ZifyBool ZifyNat Arith.
From Verif Require Import Ranges MoreSpec.

(** The binary search finds the first element that is not below, when the elements
    below come first. *)
Lemma lower_bound_spec {A} (below : A -> bool) d l : forall fuel first n,
  (n <= fuel)%nat -> (first + n <= length l)%nat ->
  (forall i j, (first <= i <= j)%nat -> (j < first + n)%nat -> below (nth j l d) = true ->
     below (nth i l d) = true) ->
  let it := lower_bound fuel below d l first n in
  (first <= it <= first + n)%nat /\
  (forall i, (first <= i < it)%nat -> below (nth i l d) = true) /\
  (forall i, (it <= i < first + n)%nat -> below (nth i l d) = false).
Proof.
  induction fuel; intros first n Hf Hl Hm; cbn [lower_bound].
  - split; [lia|]. split; intros i Hi; exfalso; lia.
  - destruct n as [|n']; [split; [lia|]; split; intros i Hi; exfalso; lia|].
    set (n := S n') in *. set (half := Nat.div2 n).
    assert (Hh : (half < n)%nat) by (apply Nat.lt_div2; unfold n; lia).
    destruct (below (nth (first + half) l d)) eqn:Eb.
    + destruct (IHfuel (first + half + 1)%nat (n - half - 1)%nat) as (H1 & H2 & H3); [lia|lia| |].
      * intros i j Hi Hj. apply Hm; lia.
      * split; [lia|]. split.
        -- intros i Hi. destruct (le_lt_dec (first + half + 1) i); [apply H2; lia|].
           apply (Hm i (first + half)%nat); auto; lia.
        -- intros i Hi. apply H3. lia.
    + destruct (IHfuel first half) as (H1 & H2 & H3); [lia|lia| |].
      * intros i j Hi Hj. apply Hm; lia.
      * split; [lia|]. split; [exact H2|].
        intros i Hi. destruct (le_lt_dec (first + half) i); [|apply H3; lia].
        destruct (below (nth i l d)) eqn:E; auto.
        rewrite (Hm (first + half)%nat i) in Eb; auto; lia.
Qed.

Lemma all_apart_perm rs out : Permutation rs out -> all_apart rs -> all_apart out.
Proof.
  intros H. induction H; intros Ha.
  - exact Ha.
  - assert (Hl : all_apart l).
    { intros i j r s Hij Hi Hj. apply (Ha (S i) (S j)); auto. }
    specialize (IHPermutation Hl). intros i j r s Hij Hi Hj.
    destruct i as [|i], j as [|j]; cbn [nth_error] in *; try lia.
    + inversion Hi; subst. apply nth_error_In in Hj. apply Permutation_sym in H.
      apply (Permutation_in _ H) in Hj. apply In_nth_error in Hj. destruct Hj as [m Hj].
      apply (Ha 0%nat (S m)); auto.
    + inversion Hj; subst. apply nth_error_In in Hi. apply Permutation_sym in H.
      apply (Permutation_in _ H) in Hi. apply In_nth_error in Hi. destruct Hi as [m Hi].
      apply (Ha (S m) 0%nat); auto.
    + apply (IHPermutation i j); auto.
  - intros i j r s Hij Hi Hj.
    set (f := fun i => match i with 0%nat => 1%nat | 1%nat => 0%nat | _ => i end).
    apply (Ha (f i) (f j)).
    + destruct i as [|[|i]], j as [|[|j]]; simpl; lia.
    + destruct i as [|[|i]]; exact Hi.
    + destruct j as [|[|j]]; exact Hj.
  - auto.
Qed.

(** Accepted values lie in a range, whatever the ranges. *)
Lemma open_sound rs v : in_open rs v = true -> exists r, In r rs /\ r_a r < v < r_b r.
Proof.
  unfold in_open. destruct (nth_error rs (candidate rs v)) as [r|] eqn:E; [|discriminate].
  intros H. exists r. split; [eapply nth_error_In; eauto|lia].
Qed.

Lemma closed_sound rs v : in_closed rs v = true -> exists r, In r rs /\ r_a r <= v <= r_b r.
Proof.
  unfold in_closed. destruct (nth_error rs (candidate rs v)) as [r|] eqn:E; [|discriminate].
  intros H. exists r. split; [eapply nth_error_In; eauto|lia].
Qed.

Section Found.
Variable rs : list range.
Hypothesis Hne : Forall (fun r => r_a r < r_b r) rs.
Hypothesis Hs : forall i j d, (i < j)%nat -> (j < length rs)%nat -> r_a (nth i rs d) <= r_a (nth j rs d).
Hypothesis Ha : all_apart rs.

Lemma proper d i : (i < length rs)%nat -> r_a (nth i rs d) < r_b (nth i rs d).
Proof. intros Hi. rewrite Forall_forall in Hne. apply Hne. apply nth_In. auto. Qed.

Lemma ordered d i j : (i < j)%nat -> (j < length rs)%nat -> r_b (nth i rs d) <= r_a (nth j rs d).
Proof.
  intros Hij Hj.
  assert (Hi : (i < length rs)%nat) by lia.
  pose proof (proper d i Hi). pose proof (proper d j Hj). pose proof (Hs i j d Hij Hj).
  destruct (Ha i j (nth i rs d) (nth j rs d)) as [H2|H2];
    [lia|apply nth_error_nth'; auto|apply nth_error_nth'; auto|lia|lia].
Qed.

Lemma found d i v : (i < length rs)%nat -> r_a (nth i rs d) <= v <= r_b (nth i rs d) ->
  exists j, candidate rs v = j /\ (j <= i)%nat /\ (j = i \/ v = r_b (nth j rs d)) /\
    r_a (nth j rs d) <= v <= r_b (nth j rs d).
Proof.
  intros Hi Hv. unfold candidate.
  destruct (lower_bound_spec (fun r => r_b r <? v) (mkRange 0 0) rs (length rs) 0 (length rs))
    as (H1 & H2 & H3); [lia|lia| |].
  { intros a b Hab Hb. destruct (Nat.eq_dec a b); [subst; auto|].
    pose proof (ordered (mkRange 0 0) a b ltac:(lia) ltac:(lia)).
    pose proof (proper (mkRange 0 0) b ltac:(lia)). lia. }
  set (it := lower_bound _ _ _ _ _ _) in *.
  assert (Hlt : (it <= i)%nat).
  { destruct (le_lt_dec it i); auto. specialize (H2 i ltac:(lia)). cbn beta in H2.
    rewrite (nth_indep _ _ d Hi) in H2. lia. }
  assert (Hb : v <= r_b (nth it rs d)).
  { specialize (H3 it ltac:(lia)). cbn beta in H3. rewrite (nth_indep _ _ d) in H3 by lia. lia. }
  assert (Hj : r_a (nth it rs d) <= v /\ (it = i \/ v = r_b (nth it rs d))).
  { destruct (Nat.eq_dec it i) as [E|E]; [subst it; rewrite E in *; split; [lia|auto]|].
    pose proof (ordered d it i ltac:(lia) Hi). pose proof (proper d it ltac:(lia)). lia. }
  replace (negb (Nat.eqb it 0) && (Nat.eqb it (length rs) || (v <? r_a (nth it rs (mkRange 0 0))))) with false.
  - exists it. split; auto. split; auto. lia.
  - rewrite (nth_indep _ _ d) by lia. lia.
Qed.
End Found.

Lemma in_sorted rs out r : sorted_from rs out -> In r rs -> exists i, nth_error out i = Some r.
Proof. intros [H _] Hin. apply In_nth_error. eapply Permutation_in; eauto. Qed.

Lemma proper_perm rs out : Permutation rs out -> Forall (fun r => r_a r < r_b r) rs ->
  Forall (fun r => r_a r < r_b r) out.
Proof.
  intros H. rewrite !Forall_forall. intros Hf r Hr. apply Hf.
  eapply Permutation_in; [apply Permutation_sym|]; eauto.
Qed.

Lemma open_exact rs out v : sorted_from rs out -> Forall (fun r => r_a r < r_b r) rs -> all_apart rs ->
  (in_open out v = true <-> exists r, In r rs /\ r_a r < v < r_b r).
Proof.
  intros Hso Hf Ha. split.
  - intros H. apply open_sound in H. destruct H as (r & Hr & Hv). exists r. split; auto.
    eapply Permutation_in; [apply Permutation_sym, Hso|]; auto.
  - intros (r & Hr & Hv). destruct (in_sorted _ _ _ Hso Hr) as [i Hi].
    assert (Hl : (i < length out)%nat) by (apply nth_error_Some; congruence).
    assert (Hn : nth i out r = r) by (apply nth_error_nth; auto).
    destruct Hso as [Hp Hs].
    destruct (found out (proper_perm _ _ Hp Hf) Hs (all_apart_perm _ _ Hp Ha) r i v)
      as (j & Hj & Hji & Hd & Hv'); [auto|rewrite Hn; lia|].
    unfold in_open. rewrite Hj. rewrite (nth_error_nth' out r) by lia.
    destruct (Nat.eq_dec j i) as [E|E]; [rewrite E, Hn; lia|].
    destruct Hd as [Hd|Hd]; [lia|].
    pose proof (ordered out (proper_perm _ _ Hp Hf) Hs (all_apart_perm _ _ Hp Ha) r j i ltac:(lia) Hl).
    rewrite Hn in *. lia.
Qed.

Lemma closed_exact rs out v : sorted_from rs out -> Forall (fun r => r_a r < r_b r) rs -> all_apart rs ->
  (in_closed out v = true <-> exists r, In r rs /\ r_a r <= v <= r_b r).
Proof.
  intros Hso Hf Ha. split.
  - intros H. apply closed_sound in H. destruct H as (r & Hr & Hv). exists r. split; auto.
    eapply Permutation_in; [apply Permutation_sym, Hso|]; auto.
  - intros (r & Hr & Hv). destruct (in_sorted _ _ _ Hso Hr) as [i Hi].
    assert (Hl : (i < length out)%nat) by (apply nth_error_Some; congruence).
    assert (Hn : nth i out r = r) by (apply nth_error_nth; auto).
    destruct Hso as [Hp Hs].
    destruct (found out (proper_perm _ _ Hp Hf) Hs (all_apart_perm _ _ Hp Ha) r i v)
      as (j & Hj & Hji & Hd & Hv'); [auto|rewrite Hn; lia|].
    unfold in_closed. rewrite Hj. rewrite (nth_error_nth' out r) by lia. lia.
Qed.

Lemma lower_bound_first A (below : A -> bool) d l :
  (forall i j, (i <= j)%nat -> (j < length l)%nat -> below (nth j l d) = true -> below (nth i l d) = true) ->
  let it := lower_bound (length l) below d l 0 (length l) in
  (it <= length l)%nat /\
  (forall i, (i < it)%nat -> below (nth i l d) = true) /\
  (forall i, (it <= i < length l)%nat -> below (nth i l d) = false).
Proof.
  intros Hm. destruct (lower_bound_spec below d l (length l) 0 (length l)) as (H1 & H2 & H3); [lia|lia| |].
  - intros i j Hi Hj. apply Hm; lia.
  - cbn zeta. split; [lia|]. split; intros i Hi; [apply H2; lia|apply H3; lia].
Qed.
