(** * The single header of the repository, character by character

    A test of the model, not a proof: the model of amalgam.py, run on the files below
    include/ as they stand, writes single_header/s2s.hpp as it stands.  So what C100 says
    of the script holds of that file. *)
From Verif Require SourceText AmalgamHeaderFacts.
From Verif Require Import AmalgamText AmalgamTextSpec.
Local Open Scope list_scope.

Definition on_disk : files := map (fun f => (fst f, list_ascii_of_string (snd f))) SourceText.tree.
Definition base : place := ["r"; "include"]%string.
Definition entry : place := ["r"; "include"; "s2s.hpp"]%string.

Fixpoint same_text (a b : str) : bool :=
  match a, b with
  | [], [] => true
  | x :: a', y :: b' => if Ascii.eqb x y then same_text a' b' else false
  | _, _ => false
  end.
Lemma same_text_eq a : forall b, same_text a b = true -> a = b.
Proof.
  induction a as [|x a IH]; intros [|y b]; simpl; try discriminate; auto.
  destruct (Ascii.eqb x y) eqn:E; [|discriminate]. apply Ascii.eqb_eq in E. intros H. rewrite (IH b H), E. auto.
Qed.

Lemma computed : match amalgamate base on_disk (absolute entry) with
  | Some (Wrote t) => same_text t SourceText.header
  | _ => false
  end = true.
Proof. vm_cast_no_check (eq_refl true). Qed.
Example s2s_header_text : amalgamate base on_disk (absolute entry) = Some (Wrote SourceText.header).
Proof.
  pose proof computed as C. destruct (amalgamate base on_disk (absolute entry)) as [[|t]|]; try discriminate.
  apply same_text_eq in C. rewrite C. reflexivity.
Qed.

(** What C100 asks of a directory, decided. *)
Definition componentb (c : string) : bool :=
  negb (existsb (String.eqb c) [""; "."; ".."]%string) &&
  forallb (fun a => negb (Ascii.eqb a "/"%char || Ascii.eqb a newline)) (s c).
Lemma componentb_ok c : componentb c = true -> component c.
Proof.
  unfold componentb. rewrite andb_true_iff, negb_true_iff, forallb_forall. intros [H1 H2].
  assert (N : forall x, In x [""; "."; ".."]%string -> c <> x).
  { intros x Hx ->. assert (existsb (String.eqb x) [""; "."; ".."]%string = true); [|congruence].
    apply existsb_exists. exists x. split; auto. apply String.eqb_refl. }
  repeat split; try (apply N; simpl; tauto); intros K; specialize (H2 _ K); discriminate.
Qed.
Fixpoint once (l : list place) : bool :=
  match l with [] => true | p :: l' => negb (existsb (same p) l') && once l' end.
Lemma same_refl p : same p p = true.
Proof. induction p; simpl; auto. rewrite String.eqb_refl. auto. Qed.
Lemma once_ok l : once l = true -> NoDup l.
Proof.
  induction l as [|p l IH]; simpl; [constructor|]. rewrite andb_true_iff, negb_true_iff. intros [H1 H2].
  constructor; auto. intros K. assert (existsb (same p) l = true); [|congruence].
  apply existsb_exists. exists p. split; auto. apply same_refl.
Qed.

Lemma s2s_sound : sound on_disk.
Proof.
  assert (H : once (map fst on_disk) && forallb (fun p => match p with [] => false | _ => forallb componentb p end) (map fst on_disk) = true)
    by (vm_cast_no_check (eq_refl true)).
  apply andb_true_iff in H as [H1 H2]. split; [apply once_ok, H1|]. intros p Hp. rewrite forallb_forall in H2.
  specialize (H2 p Hp). destruct p as [|c p]; [discriminate|]. split; [discriminate|]. apply Forall_forall. intros x Hx.
  rewrite forallb_forall in H2. apply componentb_ok, H2, Hx.
Qed.
(** Where a file stands in the header. *)
Fixpoint position (x : string) (l : list string) : nat :=
  match l with [] => 0 | y :: l' => if String.eqb x y then 0 else S (position x l') end.
Definition names_of (r : option amalgamated) : list string :=
  match r with Some (Single _ bs) => map fst bs | _ => [] end.
Definition order_of : list string := names_of (amalgam (source_of base on_disk) (absolute entry)).
Lemma s2s_acyclic : acyclic on_disk.
Proof.
  set (o := order_of). vm_compute in o.
  apply (AmalgamHeaderFacts.climbs_acyclic on_disk (fun p => position (render p) o) s2s_sound).
  vm_cast_no_check (eq_refl true).
Qed.
Lemma s2s_looked_at : forall p, In p (map fst on_disk) -> looked_at base p.
Proof.
  assert (H : forallb (scanned base) (map fst on_disk) = true) by (vm_cast_no_check (eq_refl true)).
  intros p Hp. rewrite forallb_forall in H. apply AmalgamHeaderFacts.scanned_iff, H, Hp.
Qed.
Lemma s2s_tidy : forall p t ls l, In (p, t) on_disk -> text_lines t ls -> In l ls -> ~ runs_on l.
Proof.
  assert (H : forallb (fun f => forallb AmalgamTextFacts.tidy (lines (snd f))) on_disk = true) by (vm_cast_no_check (eq_refl true)).
  intros p t ls l I T Hl. apply AmalgamTextFacts.text_lines_eq in T. subst ls. rewrite forallb_forall in H.
  specialize (H _ I). cbn [snd] in H. rewrite forallb_forall in H. apply AmalgamTextFacts.tidy_ok, H, Hl.
Qed.
Lemma s2s_entry : In entry (map fst on_disk).
Proof.
  assert (H : existsb (same entry) (map fst on_disk) = true) by (vm_cast_no_check (eq_refl true)).
  apply existsb_exists in H as (p & Hp & H). apply AmalgamHeaderFacts.same_iff in H. subst p. exact Hp.
Qed.

Example s2s_header : exists order std bs ls, text_lines SourceText.header ls /\
  NoDup order /\ (forall p, In p order <-> needs on_disk entry p) /\
  (forall l a r b, order = l ++ a :: r -> direct on_disk a b -> In b l) /\
  StronglySorted (fun a b => String.compare a b = Lt) std /\
  (forall h, In h std <-> exists p t ls l, In (p, t) on_disk /\ looked_at base p /\ text_lines t ls /\ In l ls /\ angled l (s h)) /\
  Forall2 (block_of on_disk base) order bs /\
  keeps (fun l => ~ blank l) ls (map (fun h => s "#include <" ++ s h ++ s ">") std ++ concat bs).
Proof.
  destruct (AmalgamHeaderFacts.header base on_disk entry s2s_sound s2s_acyclic s2s_entry) as (order & std & bs & out & ls & A & H).
  - intros p Hp. apply s2s_looked_at. apply (AmalgamHeaderFacts.needs_files on_disk entry p s2s_entry Hp).
  - intros p t ls l _. apply s2s_tidy.
  - rewrite s2s_header_text in A. injection A as <-. exists order, std, bs, ls. exact H.
Qed.
