(** * Facts about the single header *)
From Coq Require Import Lia.
From Verif Require Export AmalgamSpec.
From Verif Require Import ReadFacts.
Local Open Scope nat_scope.

(** ** Graphs *)

Definition edge (g : graph) (a b : ident) : Prop := In b (includes g a).
Definition path (g : graph) := clos_trans _ (edge g).
Definition paths (g : graph) := clos_refl_trans _ (edge g).

Definition left_over (g : graph) (vis : list ident) : nat :=
  length (filter (fun x => negb (memb x vis)) (map fst g)).

Lemma memb_false i l : memb i l = false <-> ~ In i l.
Proof.
  destruct (memb i l) eqn:E; split; intros H; try discriminate; auto.
  - exfalso. apply H, memb_In; auto.
  - intros K. apply memb_In in K. congruence.
Qed.

Lemma includes_key g f : includes g f <> [] -> In f (map fst g).
Proof.
  induction g as [|[x l] g IH]; simpl; auto. destruct (String.eqb_spec x f); auto.
Qed.

Lemma filter_le {A} (p q : A -> bool) l : (forall x, p x = true -> q x = true) ->
  length (filter p l) <= length (filter q l).
Proof.
  intros H. induction l as [|x l IH]; simpl; auto. pose proof (H x) as Hx.
  destruct (p x) eqn:E; [rewrite (Hx eq_refl); simpl; lia|]. destruct (q x); simpl; lia.
Qed.

Lemma filter_lt {A} (p q : A -> bool) l a : (forall x, p x = true -> q x = true) ->
  In a l -> p a = false -> q a = true -> length (filter p l) < length (filter q l).
Proof.
  intros H. induction l as [|x l IH]; simpl; [tauto|]. intros [->|Hi] Hp Hq.
  - rewrite Hp, Hq. simpl. pose proof (filter_le p q l H). lia.
  - specialize (IH Hi Hp Hq). pose proof (H x) as Hx.
    destruct (p x) eqn:E; [rewrite (Hx eq_refl); simpl; lia|]. destruct (q x); simpl; lia.
Qed.

Lemma left_le g v v' : incl v v' -> left_over g v' <= left_over g v.
Proof.
  intros H. apply filter_le. intros x Hx. apply negb_true_iff, memb_false in Hx.
  apply negb_true_iff, memb_false. auto.
Qed.

Lemma left_lt g v f : In f (map fst g) -> ~ In f v -> left_over g (f :: v) < left_over g v.
Proof.
  intros Hf Hv. apply filter_lt with (a := f); auto.
  - intros x Hx. apply negb_true_iff, memb_false in Hx. apply negb_true_iff, memb_false.
    intros K. apply Hx. right. auto.
  - apply negb_false_iff, memb_In. left. auto.
  - apply negb_true_iff, memb_false. auto.
Qed.

Lemma left_top g v : left_over g v < depth g.
Proof.
  unfold left_over, depth. rewrite <- (map_length fst g).
  induction (map fst g); simpl; auto. destruct (negb _); simpl; lia.
Qed.

(** ** [each] *)

Lemma each_ok {S} (step : ident -> S -> option S) (P : list ident -> S -> Prop) l s0 :
  P [] s0 ->
  (forall l1 x l2 s, l = l1 ++ x :: l2 -> P l1 s -> exists s', step x s = Some s' /\ P (l1 ++ [x]) s') ->
  exists s, each step l s0 = Some s /\ P l s.
Proof.
  intros H0 H.
  assert (G : forall l2 l1 s, l = l1 ++ l2 -> P l1 s -> exists s', each step l2 s = Some s' /\ P l s').
  { induction l2 as [|x l2 IH]; intros l1 s E HP; simpl.
    - exists s. rewrite E, app_nil_r. auto.
    - destruct (H l1 x l2 s E HP) as (s' & -> & HP'). apply IH with (l1 := l1 ++ [x]); auto.
      rewrite <- app_assoc. auto. }
  apply (G l []); auto.
Qed.

(** ** Transitive dependencies *)

Record closes (g : graph) (f : ident) (vis ds vis' : list ident) : Prop := {
  cl_incl : incl vis vis';
  cl_self : In f vis';
  cl_new : forall x, In x vis' -> In x vis \/ paths g f x;
  cl_deps : forall x, In x ds -> path g f x;
  cl_all : forall x d, In x vis' -> ~ In x vis -> edge g x d -> In d ds /\ In d vis' }.

Lemma path_step g a b c : edge g a b -> paths g b c -> path g a c.
Proof. intros H K. apply clos_rt_rt1n in K. revert a H.
  induction K as [|x y z Hxy K IH]; intros a0 Ha; [apply t_step; auto|].
  eapply t_trans; [apply t_step; exact Ha|]. apply IH; auto.
Qed.

Lemma path_paths g a b : path g a b -> paths g a b.
Proof. induction 1; [apply rt_step; auto|eapply rt_trans; eauto]. Qed.

Lemma transitive_ok g : forall n f vis, left_over g vis < n ->
  exists ds vis', transitive n g f vis = Some (ds, vis') /\ closes g f vis ds vis'.
Proof.
  induction n as [|n IH]; intros f vis Hn; [lia|]. simpl.
  destruct (memb f vis) eqn:Ef.
  { exists [], vis. split; auto. apply memb_In in Ef. split; auto using incl_refl; simpl; tauto. }
  apply memb_false in Ef.
  destruct (includes g f) as [|i0 is0] eqn:EI.
  { exists [], (f :: vis). split; auto. split.
    - apply incl_tl, incl_refl.
    - left; auto.
    - intros x [->|]; auto. right. apply rt_refl.
    - intros x [].
    - intros x d [->|Hx] Hn' Hd; [|tauto]. unfold edge in Hd. rewrite EI in Hd. destruct Hd. }
  rewrite <- EI. assert (Hk : In f (map fst g)) by (apply includes_key; congruence).
  pose proof (left_lt g vis f Hk Ef) as Hlt.
  destruct (each_ok (fun d s => match transitive n g d (snd s) with
              | Some (ds, vis') => Some (fst s ++ ds, vis') | None => None end)
    (fun l s => incl (f :: vis) (snd s) /\ incl l (snd s) /\ incl (includes g f) (fst s) /\
       (forall x, In x (snd s) -> In x vis \/ paths g f x) /\
       (forall x, In x (fst s) -> path g f x) /\
       (forall x d, In x (snd s) -> ~ In x (f :: vis) -> edge g x d -> In d (fst s) /\ In d (snd s)))
    (includes g f) (includes g f, f :: vis)) as ([ds vis'] & E & H1 & H2 & H3 & H4 & H5 & H6).
  - simpl. split; [apply incl_refl|]. split; [intros x []|]. split; [apply incl_refl|].
    split; [intros x [->|]; auto; right; apply rt_refl|].
    split; [intros x Hx; apply t_step; auto|]. tauto.
  - intros l1 x l2 [ds vis'] El (H1 & H2 & H3 & H4 & H5 & H6). cbn [fst snd] in *.
    assert (Ed : edge g f x) by (unfold edge; rewrite El; apply in_elt).
    destruct (IH x vis') as (ds1 & vis1 & E & C).
    { pose proof (left_le g _ _ H1). lia. }
    rewrite E. eexists. split; [reflexivity|]. cbn [fst snd]. destruct C as [C1 C2 C3 C4 C5].
    split; [eapply incl_tran; eauto|].
    split; [apply incl_app; [eapply incl_tran; eauto|intros y [->|[]]; auto]|].
    split; [apply incl_appl; auto|].
    split; [intros y Hy; destruct (C3 y Hy); auto; right; apply path_paths; eapply path_step; eauto|].
    split; [intros y Hy; apply in_app_or in Hy as [Hy|Hy]; auto;
            eapply path_step; eauto; apply path_paths; auto|].
    intros y d Hy Hny Hd. destruct (in_dec String.string_dec y vis') as [Hi|Hi].
    + destruct (H6 y d Hi Hny Hd). split; [apply in_or_app; auto|auto].
    + destruct (C5 y d Hy Hi Hd). split; [apply in_or_app; auto|auto].
  - rewrite E. exists ds, vis'. split; auto. cbn [fst snd] in *. split.
    + intros x Hx. apply H1. right; auto.
    + apply H1. left; auto.
    + auto.
    + auto.
    + intros x d Hx Hnx Hd. destruct (String.string_dec x f) as [->|Hne].
      * split; [apply H3|apply H2]; auto.
      * apply H6 with (x := x); auto. intros [|]; auto.
Qed.

Lemma closed_paths g (l : list ident) : (forall x d, In x l -> edge g x d -> In d l) ->
  forall a b, paths g a b -> In a l -> In b l.
Proof. intros H a b P. induction P; eauto. Qed.

Lemma transitive_iff g f : exists ds vis, transitive (depth g) g f [] = Some (ds, vis) /\
  forall x, In x ds <-> path g f x.
Proof.
  destruct (transitive_ok g (depth g) f [] (left_top g [])) as (ds & vis & E & [C1 C2 C3 C4 C5]).
  exists ds, vis. split; auto. intros x. split; auto. intros P.
  assert (CL : forall a d, In a vis -> edge g a d -> In d vis).
  { intros a d Ha Hd. apply (C5 a d Ha); auto. }
  apply clos_trans_tn1 in P. inversion P as [y Hy|y z Hy Py]; subst.
  - apply (C5 f x); auto.
  - apply (C5 y x); auto. apply (closed_paths g vis CL f); auto. apply path_paths, clos_tn1_trans; auto.
Qed.

(** ** Reduction *)

Lemma covered_iff g incs : exists t, covered g incs = Some t /\
  forall x, In x t <-> exists i, In i incs /\ path g i x.
Proof.
  unfold covered.
  destruct (each_ok (fun i s => match transitive (depth g) g i [] with
                   | Some (ds, _) => Some (s ++ ds) | None => None end)
    (fun l s => forall x, In x s <-> exists i, In i l /\ path g i x) incs []) as (t & E & H).
  - intros x. split; [intros []|intros (i & [] & _)].
  - intros l1 i l2 s _ H. destruct (transitive_iff g i) as (ds & vis & -> & D).
    eexists. split; [reflexivity|]. intros x. rewrite in_app_iff, H, D. split.
    + intros [(j & Hj & P)|P]; [exists j; split; auto; apply in_or_app; auto|].
      exists i. split; auto. apply in_or_app. right; left; auto.
    + intros (j & Hj & P). apply in_app_or in Hj as [Hj|[->|[]]]; eauto.
  - eauto.
Qed.

Lemma reduce_ok g : forall h, exists r, reduce g h = Some r /\ map fst r = map fst h /\
  forall a b, edge r a b <-> edge h a b /\ ~ exists i, edge h a i /\ path g i b.
Proof.
  induction h as [|[f incs] h IH]; simpl.
  - exists []. split; auto. split; auto. intros a b. unfold edge. simpl. tauto.
  - destruct (covered_iff g incs) as (t & -> & T). destruct IH as (r & -> & K & R).
    eexists. split; [reflexivity|]. split; [simpl; congruence|]. intros a b. unfold edge in *. simpl.
    destruct (String.eqb_spec f a); auto. rewrite filter_In, negb_true_iff, memb_false, T. tauto.
Qed.

(** ** Depth first *)

Lemma split_app {A} (u v l r : list A) a : u ++ v = l ++ a :: r ->
  (exists r1, u = l ++ a :: r1) \/ (exists l1, l = u ++ l1 /\ v = l1 ++ a :: r).
Proof.
  revert l. induction u as [|x u IH]; intros l H; simpl in H.
  - right. exists l. auto.
  - destruct l as [|y l]; simpl in H; inversion H; subst.
    + left. exists u. auto.
    + destruct (IH l H2) as [[r1 ->]|(l1 & -> & ->)]; [left; exists r1; auto|right; exists l1; auto].
Qed.

Record visits (g : graph) (f : ident) (s s' : list ident * list ident) (new : list ident) : Prop := {
  v_out : snd s' = snd s ++ new;
  v_vis : forall x, In x (fst s') <-> In x (fst s) \/ In x new;
  v_dup : NoDup new;
  v_apart : forall x, In x new -> ~ In x (fst s);
  v_self : In f (fst s) \/ In f new;
  v_from : forall x, In x new -> paths g f x;
  v_closed : forall x d, In x new -> edge g x d -> In d (fst s) \/ In d new;
  v_order : (forall x, ~ path g x x) ->
    (forall x, In x (fst s) -> In x (snd s) \/ path g x f) ->
    forall l a r b, new = l ++ a :: r -> edge g a b -> In b (snd s) \/ In b l }.

Lemma nodup_app {A} (l r : list A) : NoDup l -> NoDup r -> (forall x, In x r -> ~ In x l) -> NoDup (l ++ r).
Proof.
  induction l as [|a l IH]; simpl; auto. intros Hl Hr H. inversion Hl; subst. constructor.
  - intros Hi. apply in_app_or in Hi as [Hi|Hi]; auto. apply (H a Hi). left; auto.
  - apply IH; auto. intros x Hx Hn. apply (H x Hx). right; auto.
Qed.

Lemma visit_ok g : forall n f s, left_over g (fst s) < n ->
  exists s' new, visit n g f s = Some s' /\ visits g f s s' new.
Proof.
  induction n as [|n IH]; intros f [vis out] Hn; cbn [fst snd] in *; [lia|]. simpl.
  destruct (memb f vis) eqn:Ef.
  { apply memb_In in Ef. exists (vis, out), []. split; auto. split; cbn [fst snd]; auto.
    - rewrite app_nil_r; auto.
    - simpl. tauto.
    - constructor.
    - intros x [].
    - intros _ _ [|? ?] ? ? ? E; discriminate. }
  apply memb_false in Ef.
  assert (L : exists s' news, each (visit n g) (includes g f) (f :: vis, out) = Some s' /\
    snd s' = out ++ news /\ (forall x, In x (fst s') <-> In x (f :: vis) \/ In x news) /\ NoDup news /\
    (forall x, In x news -> ~ In x (f :: vis)) /\
    (forall d, edge g f d -> In d (f :: vis) \/ In d news) /\
    (forall x, In x news -> paths g f x) /\
    (forall x d, In x news -> edge g x d -> In d (f :: vis) \/ In d news) /\
    ((forall x, ~ path g x x) -> (forall x, In x vis -> In x out \/ path g x f) ->
      forall l a r b, news = l ++ a :: r -> edge g a b -> In b out \/ In b l)).
  { destruct (includes g f) as [|i0 is0] eqn:EI.
    { exists (f :: vis, out), []. simpl. split; auto. split; [rewrite app_nil_r; auto|].
      split; [tauto|]. split; [constructor|]. split; [tauto|].
      split; [unfold edge; rewrite EI; intros d []|]. split; [tauto|]. split; [tauto|].
      intros _ _ [|? ?] ? ? ? E; discriminate. }
    rewrite <- EI. assert (Hk : In f (map fst g)) by (apply includes_key; congruence).
    pose proof (left_lt g vis f Hk Ef) as Hlt.
    destruct (each_ok (visit n g) (fun l s' => exists news,
      snd s' = out ++ news /\ (forall x, In x (fst s') <-> In x (f :: vis) \/ In x news) /\ NoDup news /\
      (forall x, In x news -> ~ In x (f :: vis)) /\
      (forall d, In d l -> In d (f :: vis) \/ In d news) /\
      (forall x, In x news -> paths g f x) /\
      (forall x d, In x news -> edge g x d -> In d (f :: vis) \/ In d news) /\
      ((forall x, ~ path g x x) -> (forall x, In x vis -> In x out \/ path g x f) ->
        forall l a r b, news = l ++ a :: r -> edge g a b -> In b out \/ In b l))
      (includes g f) (f :: vis, out)) as (s' & E & news & H).
    - exists []. cbn [fst snd]. rewrite app_nil_r. split; auto. split; [simpl; tauto|].
      split; [constructor|]. split; [intros x []|]. split; [intros x []|]. split; [intros x []|].
      split; [intros x d []|]. intros _ _ [|? ?] ? ? ? E; discriminate.
    - intros l1 x l2 s El (news & H1 & H2 & H3 & H4 & H5 & H6 & H7 & H8).
      assert (Ed : edge g f x) by (unfold edge; rewrite El; apply in_elt).
      destruct (IH x s) as (s1 & new1 & E & V).
      { assert (incl (f :: vis) (fst s)) by (intros y Hy; apply H2; auto).
        pose proof (left_le g _ _ H). lia. }
      exists s1. split; auto. exists (news ++ new1). destruct V as [V1 V2 V3 V4 V5 V6 V7 V8].
      split; [rewrite V1, H1, app_assoc; auto|].
      split; [intros y; rewrite V2, H2, in_app_iff; tauto|].
      split; [apply nodup_app; auto; intros y Hy Hn'; apply (V4 y Hy), H2; auto|].
      split; [intros y Hy Hn'; apply in_app_or in Hy as [Hy|Hy]; [apply (H4 y); auto|apply (V4 y Hy), H2; auto]|].
      split.
      { intros d Hd. rewrite in_app_iff. apply in_app_or in Hd as [Hd|[->|[]]].
        - destruct (H5 d Hd); auto.
        - destruct V5 as [V5|]; auto. apply H2 in V5. tauto. }
      split; [intros y Hy; apply in_app_or in Hy as [Hy|Hy]; auto; eapply rt_trans; [apply rt_step; exact Ed|apply V6; auto]|].
      split.
      { intros y d Hy Hd. rewrite in_app_iff. apply in_app_or in Hy as [Hy|Hy].
        - destruct (H7 y d Hy Hd); auto.
        - destruct (V7 y d Hy Hd) as [K|]; auto. apply H2 in K. tauto. }
      intros AC G l a r b El' Hb. apply split_app in El' as [[r1 El']|(l3 & -> & El')].
      + eapply H8; eauto.
      + destruct (V8 AC) with (l := l3) (a := a) (r := r) (b := b) as [K|K]; auto.
        * intros y Hy. apply H2 in Hy. rewrite H1, in_app_iff. destruct Hy as [[->|Hy]|Hy]; auto.
          -- right. apply t_step; auto.
          -- destruct (G y Hy); auto. right. eapply t_trans; eauto. apply t_step; auto.
        * rewrite H1, in_app_iff in K. rewrite in_app_iff. tauto.
        * rewrite in_app_iff. tauto.
    - exists s', news. auto. }
  destruct L as ([vis' out'] & news & -> & H1 & H2 & H3 & H4 & H5 & H6 & H7 & H8). cbn [fst snd] in *.
  exists (vis', out' ++ [f]), (news ++ [f]). split; auto. split; cbn [fst snd].
  - rewrite H1, app_assoc. auto.
  - intros x. rewrite H2, in_app_iff. simpl. tauto.
  - apply nodup_app; auto; [repeat constructor; auto|]. intros x [->|[]] Hn'. apply (H4 x Hn'). left; auto.
  - intros x Hx. apply in_app_or in Hx as [Hx|[->|[]]]; auto. intros Hn'. apply (H4 x Hx). right; auto.
  - right. apply in_or_app. right; left; auto.
  - intros x Hx. apply in_app_or in Hx as [Hx|[->|[]]]; auto. apply rt_refl.
  - intros x d Hx Hd. rewrite in_app_iff. assert (In d (f :: vis) \/ In d news) as [[->|]|].
    { apply in_app_or in Hx as [Hx|[->|[]]]; [apply (H7 x)|apply H5]; auto. }
    all: simpl; tauto.
  - intros AC G l a r b El Hb. apply split_app in El as [[r1 El]|(l1 & -> & El)].
    + eapply H8; eauto.
    + destruct l1 as [|y l1]; [|destruct l1; discriminate]. inversion El; subst a r. rewrite app_nil_r.
      destruct (H5 b Hb) as [[<-|K]|K]; auto.
      * exfalso. apply (AC f). apply t_step; auto.
      * destruct (G b K); auto. exfalso. apply (AC f). eapply t_trans; [apply t_step; exact Hb|auto].
Qed.

Lemma topological_ok g f : exists out, topological_sort g f = Some out /\ NoDup out /\
  (forall x, In x out <-> paths g f x) /\
  ((forall x, ~ path g x x) -> forall l a r b, out = l ++ a :: r -> edge g a b -> In b l).
Proof.
  unfold topological_sort. destruct (visit_ok g (depth g) f ([], []) (left_top g _)) as ([vis out] & new & -> & V).
  exists out. destruct V as [V1 V2 V3 V4 V5 V6 V7 V8]. cbn [fst snd app] in *. subst out. split; auto.
  split; auto. split.
  - intros x. split; auto. intros P. apply (closed_paths g new) with (a := f); auto.
    + intros y d Hy Hd. destruct (V7 y d Hy Hd) as [[]|]; auto.
    + destruct V5 as [[]|]; auto.
  - intros AC l a r b El Hb. destruct (V8 AC) with (l := l) (a := a) (r := r) (b := b) as [[]|]; auto.
Qed.

(** ** Reduction keeps what is needed *)

Fixpoint pos (x : ident) (l : list ident) : nat :=
  match l with [] => 0 | y :: l' => if String.eqb x y then 0 else S (pos x l') end.

Lemma pos_lt x l r : In x l -> pos x (l ++ r) < length l.
Proof.
  induction l as [|y l IH]; simpl; [tauto|]. destruct (String.eqb_spec x y); [lia|].
  intros [->|H]; [congruence|]. specialize (IH H). lia.
Qed.

Lemma pos_at x l r : ~ In x l -> pos x (l ++ x :: r) = length l.
Proof.
  induction l as [|y l IH]; simpl; intros H; [rewrite String.eqb_refl; auto|].
  destruct (String.eqb_spec x y); [subst; tauto|]. rewrite IH; auto.
Qed.

Section Reduced.
Variables (g r : graph).
Hypothesis AC : forall x, ~ path g x x.
Hypothesis R : forall a b, edge r a b <-> edge g a b /\ ~ exists i, edge g a i /\ path g i b.

Lemma reduced_path a b : path r a b -> path g a b.
Proof. induction 1; [apply t_step; apply R; auto|eapply t_trans; eauto]. Qed.

Lemma ranked e : exists k : ident -> nat, exists m, forall a b, paths g e a -> edge g a b -> k b < k a /\ k a < m.
Proof.
  destruct (topological_ok g e) as (out & _ & D & I & O). exists (fun x => pos x out), (length out).
  intros a b P Eb. apply I in P. apply in_split in P as (l & q & El).
  assert (~ In a l). { rewrite El in D. apply NoDup_remove_2 in D. intros H. apply D, in_or_app; auto. }
  pose proof (O AC l a q b El Eb). rewrite El. rewrite pos_at by auto. split; [apply pos_lt; auto|].
  rewrite app_length. simpl. lia.
Qed.

Lemma path_dec a b : {path g a b} + {~ path g a b}.
Proof.
  destruct (transitive (depth g) g a []) as [[ds vis]|] eqn:E.
  - destruct (in_dec String.string_dec b ds) as [H|H].
    + left. destruct (transitive_iff g a) as (ds' & vis' & E' & I). rewrite E in E'. inversion E'; subst. apply I; auto.
    + right. destruct (transitive_iff g a) as (ds' & vis' & E' & I). rewrite E in E'. inversion E'; subst.
      rewrite <- I; auto.
  - exfalso. destruct (transitive_iff g a) as (ds' & vis' & E' & I). congruence.
Qed.

Lemma kept e : forall a, paths g e a -> forall b, path g a b -> path r a b.
Proof.
  destruct (ranked e) as (k & m & K).
  assert (KP : forall a b, path g a b -> paths g e a -> k b < k a).
  { intros a b P. induction P as [a b H|a b c P1 IH1 P2 IH2]; intros Pa.
    - apply K; auto.
    - assert (paths g e b) by (eapply rt_trans; [exact Pa|apply path_paths; auto]).
      specialize (IH1 Pa). specialize (IH2 H). lia. }
  assert (M : forall n a, k a < n -> paths g e a -> forall b, path g a b -> path r a b).
  { induction n as [|n IH]; intros a Ha Pa; [lia|].
    assert (NEXT : forall b, edge g a b -> forall c, path g b c -> path r b c).
    { intros b Hb c Hc. destruct (K a b Pa Hb). apply IH; auto; [lia|].
      eapply rt_trans; [exact Pa|apply rt_step; auto]. }
    assert (EDGE : forall j b, k a - k b < j -> edge g a b -> path r a b).
    { induction j as [|j IHj]; intros b Hj Hb; [lia|].
      assert (D : {i | In i (includes g a) /\ path g i b} + {forall i, In i (includes g a) -> ~ path g i b}).
      { clear -AC. induction (includes g a) as [|i l IHl]; [right; intros i []|].
        destruct (path_dec i b) as [P|P]; [left; exists i; split; [left|]; auto|].
        destruct IHl as [(j & Hj & Pj)|N]; [left; exists j; split; [right|]; auto|].
        right. intros j [->|Hj]; auto. }
      destruct D as [(i & Hi & Pi)|N].
      - eapply t_trans; [|apply (NEXT i Hi b Pi)]. apply IHj; auto.
        destruct (K a i Pa Hi). destruct (K a b Pa Hb).
        assert (k b < k i); [|lia]. apply KP; auto. eapply rt_trans; [exact Pa|apply rt_step; auto].
      - apply t_step, R. split; auto. intros (i & Hi & Pi). apply (N i); auto. }
    intros b P. apply clos_trans_t1n in P. inversion P as [y Hy|y z Hy Py]; subst.
    - apply (EDGE (S (k a - k b))); auto.
    - eapply t_trans; [apply (EDGE (S (k a - k y))); auto|].
      apply (NEXT y Hy). apply clos_t1n_trans; auto. }
  intros a Pa b P. apply (M (S (k a))); auto.
Qed.

Lemma kept_all e b : paths g e b <-> paths r e b.
Proof.
  split; intros P.
  - apply clos_rt_rtn1 in P. inversion P as [|y z Hy Py]; subst; [apply rt_refl|]. apply path_paths.
    apply (kept e e); [apply rt_refl|]. apply clos_rtn1_rt in Py.
    apply clos_rt_rt1n in Py. clear P. induction Py as [|x y' z' H1 H2 IH]; [apply t_step; auto|].
    eapply t_trans; [apply t_step; exact H1|]. apply IH; auto.
  - induction P as [a b H|a|a b c P1 IH1 P2 IH2]; [apply rt_step, R; auto|apply rt_refl|eapply rt_trans; eauto].
Qed.
End Reduced.

(** ** Sources *)

Lemma text_in src f ls : NoDup (map fst src) -> In (f, ls) src -> text src f = ls.
Proof.
  induction src as [|[x l] src IH]; simpl; [tauto|]. intros D H. inversion D; subst.
  destruct (String.eqb_spec x f) as [->|N].
  - destruct H as [H|H]; [congruence|]. exfalso. apply H2. change f with (fst (f, ls)). apply in_map; auto.
  - destruct H as [H|H]; [congruence|]. auto.
Qed.

Lemma text_of src f : In f (map fst src) -> In (f, text src f) src.
Proof.
  induction src as [|[x l] src IH]; simpl; [tauto|]. destruct (String.eqb_spec x f) as [->|N]; [auto|].
  intros [?|H]; [congruence|auto].
Qed.

Lemma graph_includes src0 src f :
  includes (map (fun x => (fst x, filter (isfile src0) (file_includes (snd x)))) src) f =
  filter (isfile src0) (file_includes (text src f)).
Proof.
  induction src as [|[x l] src IH]; simpl; auto. destruct (String.eqb_spec x f); auto.
Qed.

Lemma file_includes_in ls b : In b (file_includes ls) <-> In (LInc b) ls.
Proof.
  unfold file_includes. rewrite in_flat_map. split.
  - intros (l & Hl & Hb). destruct l; simpl in Hb; try tauto. destruct Hb as [->|[]]; auto.
  - intros H. exists (LInc b). split; auto. left; auto.
Qed.

Lemma edge_direct src a b : NoDup (map fst src) -> edge (graph_of src) a b <-> direct src a b.
Proof.
  intros D. unfold edge, graph_of. rewrite graph_includes, filter_In, file_includes_in.
  unfold isfile. rewrite memb_In. split.
  - intros [H K]. destruct (in_dec String.string_dec a (map fst src)) as [Ha|Ha].
    + exists (text src a). auto using text_of.
    + exfalso. assert (E : text src a = []).
      { clear -Ha. induction src as [|[x l] src IH]; simpl in *; auto.
        destruct (String.eqb_spec x a); [tauto|]. apply IH. tauto. }
      rewrite E in H. destruct H.
  - intros (ls & H1 & H2 & H3). rewrite (text_in src a ls); auto.
Qed.

Lemma path_by_way src a b : NoDup (map fst src) -> path (graph_of src) a b <-> by_way src a b.
Proof.
  intros D. split; (induction 1; [apply t_step, edge_direct; auto|eapply t_trans; eauto]).
Qed.

Lemma paths_needs src a b : NoDup (map fst src) -> paths (graph_of src) a b <-> needs src a b.
Proof.
  intros D. split; (induction 1; [apply rt_step, edge_direct; auto|apply rt_refl|eapply rt_trans; eauto]).
Qed.

Lemma once_id : forall l seen, NoDup l -> (forall x, In x l -> ~ In x seen) -> once seen l = l.
Proof.
  induction l as [|x l IH]; intros seen D H; simpl; auto. inversion D; subst.
  rewrite (proj2 (memb_false x seen)) by (apply H; left; auto). f_equal. apply IH; auto.
  intros y Hy [->|K]; [tauto|]. apply (H y); auto. right; auto.
Qed.

(** What comes out, for any source. *)
Lemma amalgam_any src e : NoDup (map fst src) -> In e (map fst src) -> exists r order,
  (forall a b, edge r a b <-> edge (graph_of src) a b /\ ~ exists i, edge (graph_of src) a i /\ path (graph_of src) i b) /\
  topological_sort r e = Some order /\
  amalgam src e = Some (Single (sorted_set (all_std src)) (map (block src) order)) /\
  NoDup order /\ (forall x, In x order <-> paths r e x) /\
  ((forall x, ~ path r x x) -> forall l a q b, order = l ++ a :: q -> edge r a b -> In b l).
Proof.
  intros D He. unfold amalgam. unfold isfile. rewrite (proj2 (memb_In e _) He). cbn [negb].
  destruct (reduce_ok (graph_of src) (graph_of src)) as (r & -> & _ & R).
  destruct (topological_ok r e) as (out & E & N & I & O). rewrite E.
  exists r, out. rewrite (once_id out []) by (auto; intros x _ []).
  split; auto.
Qed.

Lemma files_block src l : map fst (map (block src) l) = l.
Proof. rewrite map_map. simpl. apply map_id. Qed.

Lemma amalgam_total src e : NoDup (map fst src) -> exists o, amalgam src e = Some o /\
  (o = Bad <-> ~ In e (map fst src)).
Proof.
  intros D. destruct (in_dec String.string_dec e (map fst src)) as [H|H].
  - destruct (amalgam_any src e D H) as (r & order & _ & _ & E & _). eexists. split; [exact E|].
    split; [discriminate|tauto].
  - unfold amalgam, isfile. rewrite (proj2 (memb_false e _) H). simpl. eexists. split; [reflexivity|]. tauto.
Qed.

Lemma amalgam_acyclic src e std bs : NoDup (map fst src) -> acyclic src ->
  amalgam src e = Some (Single std bs) ->
  NoDup (map fst bs) /\ (forall f, In f (map fst bs) <-> needs src e f) /\
  in_order src (map fst bs) /\ (forall f c, In (f, c) bs -> c = code src f).
Proof.
  intros D AC E. assert (He : In e (map fst src)).
  { destruct (in_dec String.string_dec e (map fst src)) as [H|H]; auto. exfalso.
    unfold amalgam, isfile in E. rewrite (proj2 (memb_false e _) H) in E. discriminate. }
  destruct (amalgam_any src e D He) as (r & order & R & T & E' & N & I & O). rewrite E in E'.
  inversion E'; subst. rewrite files_block.
  assert (AG : forall x, ~ path (graph_of src) x x).
  { intros x P. apply (AC x). apply path_by_way; auto. }
  assert (AR : forall x, ~ path r x x).
  { intros x P. apply (AG x). eapply reduced_path; eauto. }
  split; auto. split; [|split].
  - intros f. rewrite I, <- (paths_needs src e f D). symmetry. apply kept_all; auto.
  - intros l a q b El Hb. apply (edge_direct src a b D) in Hb.
    assert (Pa : paths (graph_of src) e a).
    { apply (kept_all _ r AG R). apply I. rewrite El. apply in_elt. }
    assert (P : path r a b) by (apply (kept _ r AG R e a Pa), t_step; auto).
    clear Hb. revert l q El Pa. apply clos_trans_t1n in P.
    induction P as [a b Hb|a c b Hc P IH]; intros l q El Pa; [eapply O; eauto|].
    assert (Hl : In c l) by (eapply O; eauto).
    apply in_split in Hl as (l1 & l2 & ->). apply in_or_app. left.
    apply (IH l1 (l2 ++ a :: q)); [rewrite El, <- app_assoc; auto|].
    eapply rt_trans; [exact Pa|apply rt_step, R; auto].
  - intros f c Hc. apply in_map_iff in Hc as (x & Hx & _). inversion Hx. reflexivity.
Qed.

(** A file on a cycle is lost. *)
Lemma amalgam_lost src e std bs f : NoDup (map fst src) ->
  amalgam src e = Some (Single std bs) -> by_way src f f -> f <> e -> ~ In f (map fst bs).
Proof.
  intros D E P Hf Hi. assert (He : In e (map fst src)).
  { destruct (in_dec String.string_dec e (map fst src)) as [H|H]; auto. exfalso.
    unfold amalgam, isfile in E. rewrite (proj2 (memb_false e _) H) in E. discriminate. }
  destruct (amalgam_any src e D He) as (r & order & R & T & E' & N & I & O). rewrite E in E'.
  inversion E'; subst. rewrite files_block in Hi. apply I in Hi. apply clos_rt_rtn1 in Hi.
  inversion Hi as [|y z Hy _]; subst; [congruence|]. apply R in Hy as [Hy Hn]. apply Hn.
  exists f. split; auto. apply path_by_way; auto.
Qed.

(** ** Standard headers *)

Lemma insert_in x y l : In y (insert x l) <-> y = x \/ In y l.
Proof.
  induction l as [|z l IH]; simpl; [intuition congruence|].
  destruct (String.compare x z) eqn:E; simpl.
  - apply String.compare_eq_iff in E. subst. intuition congruence.
  - intuition congruence.
  - rewrite IH. intuition congruence.
Qed.

Lemma ascii_trans a b c : Ascii.compare a b = Lt -> Ascii.compare b c = Lt -> Ascii.compare a c = Lt.
Proof. unfold Ascii.compare. rewrite !N.compare_lt_iff. lia. Qed.

Lemma string_trans : forall a b c, String.compare a b = Lt -> String.compare b c = Lt -> String.compare a c = Lt.
Proof.
  induction a as [|x a IH]; intros [|y b] [|z c]; simpl; try congruence.
  destruct (Ascii.compare x y) eqn:E1; destruct (Ascii.compare y z) eqn:E2; try congruence; intros H1 H2.
  - apply Ascii.compare_eq_iff in E1, E2. subst. unfold Ascii.compare. rewrite N.compare_refl. eauto.
  - apply Ascii.compare_eq_iff in E1. subst. rewrite E2. auto.
  - apply Ascii.compare_eq_iff in E2. subst. rewrite E1. auto.
  - rewrite (ascii_trans x y z); auto.
Qed.

Lemma insert_sorted x l : StronglySorted (fun a b => String.compare a b = Lt) l ->
  StronglySorted (fun a b => String.compare a b = Lt) (insert x l).
Proof.
  induction 1 as [|y l H IH F]; simpl; [repeat constructor|].
  destruct (String.compare x y) eqn:E.
  - constructor; auto.
  - constructor; [constructor; auto|]. constructor; auto. eapply Forall_impl; [|exact F].
    intros z Hz. simpl in Hz. eapply string_trans; eauto.
  - constructor; auto. apply Forall_forall. intros z Hz. apply insert_in in Hz as [->|Hz].
    + rewrite String.compare_antisym, E. auto.
    + rewrite Forall_forall in F. auto.
Qed.

Lemma sorted_set_ok l : StronglySorted (fun a b => String.compare a b = Lt) (sorted_set l) /\
  forall x, In x (sorted_set l) <-> In x l.
Proof.
  induction l as [|y l [S I]]; simpl; [split; [constructor|tauto]|]. split; [apply insert_sorted; auto|].
  intros x. rewrite insert_in, I. intuition congruence.
Qed.

Lemma all_std_in src h : In h (all_std src) <-> exists f ls, In (f, ls) src /\ In (LStd h) ls.
Proof.
  unfold all_std. rewrite in_flat_map. split.
  - intros ([f ls] & H & K). simpl in K. unfold std_includes in K. apply in_flat_map in K as (l & Hl & Hh).
    exists f, ls. destruct l; simpl in Hh; try tauto. destruct Hh as [->|[]]. auto.
  - intros (f & ls & H & K). exists (f, ls). split; auto. unfold std_includes. apply in_flat_map.
    exists (LStd h). split; auto. left; auto.
Qed.

Lemma amalgam_std src e std bs : amalgam src e = Some (Single std bs) ->
  StronglySorted (fun a b => String.compare a b = Lt) std /\
  forall h, In h std <-> exists f ls, In (f, ls) src /\ In (LStd h) ls.
Proof.
  unfold amalgam. destruct (negb _); [discriminate|]. destruct (reduce _ _); [|discriminate].
  destruct (topological_sort _ _); [|discriminate]. intros H. inversion H; subst.
  destruct (sorted_set_ok (all_std src)) as [S I]. split; auto. intros h. rewrite I. apply all_std_in.
Qed.

(** ** The preprocessor *)

Scheme pre_ind2 := Induction for pre Sort Prop with pre_lines_ind2 := Induction for pre_lines Sort Prop.

Definition firsts (ls : list line) : Prop := forall l t r h, ls = l ++ LCode t :: r -> ~ In (LInc h) r.

Lemma firsts_tl l ls : firsts (l :: ls) -> firsts ls.
Proof. intros H l1 t r h ->. apply (H (l :: l1) t). auto. Qed.

Section Pre.
Variable src : source.
Hypothesis D : NoDup (map fst src).
Hypothesis IF : includes_first src.
Hypothesis AC : acyclic src.

Definition pre_good (g : list ident) (f : ident) (g' out : list ident) : Prop :=
  (forall x, In x g -> In x (map fst src)) ->
  exists new, out = flat_map (code src) new /\ NoDup new /\
    (forall x, In x g' <-> In x g \/ In x new) /\ (forall x, In x new -> ~ In x g) /\
    (In f g \/ In f new) /\ (forall x, In x new -> needs src f x) /\
    (forall x, In x g' -> In x (map fst src)) /\
    (forall x d, In x new -> direct src x d -> In d g \/ In d new) /\
    (forall old, (forall x, In x g -> In x old \/ by_way src x f) ->
      forall l a r b, new = l ++ a :: r -> direct src a b -> In b old \/ In b l).

Definition lines_good (g : list ident) (ls : list line) (g' out : list ident) : Prop :=
  firsts ls -> (forall x, In x g -> In x (map fst src)) ->
  exists new, out = flat_map (code src) new ++ code_of ls /\ NoDup new /\
    (forall x, In x g' <-> In x g \/ In x new) /\ (forall x, In x new -> ~ In x g) /\
    (forall d, In (LInc d) ls -> In d g \/ In d new) /\
    (forall x, In x new -> exists d, In (LInc d) ls /\ needs src d x) /\
    (forall x, In x g' -> In x (map fst src)) /\
    (forall x d, In x new -> direct src x d -> In d g \/ In d new) /\
    (forall old, (forall x d, In x g -> In (LInc d) ls -> In x old \/ by_way src x d) ->
      forall l a r b, new = l ++ a :: r -> direct src a b -> In b old \/ In b l).

Lemma pre_ok g f g' out : pre src g f g' out -> pre_good g f g' out.
Proof.
  intros H. induction H using pre_ind2 with (P0 := fun g ls g' out _ => lines_good g ls g' out).
  - intros HS. exists []. split; auto. split; [constructor|]. split; [simpl; tauto|]. split; [intros x []|].
    split; auto. split; [intros x []|]. split; auto. split; [intros x d []|].
    intros old _ [|? ?] ? ? ? E; discriminate.
  - rename i into Hls, n into Hf. intros HS.
    assert (In f (map fst src)) by (change f with (fst (f, ls)); apply in_map; auto).
    destruct IHpre as (new & E & ND & V & A & I & F & S & C & O).
    { intros l t r h El. subst ls. eapply IF; eauto. }
    { intros x [<-|]; auto. }
    assert (DI : forall d, In (LInc d) ls -> direct src f d).
    { intros d Hd. exists ls. split; auto. split; auto. apply S, V. auto. }
    assert (ID : forall d, direct src f d -> In (LInc d) ls).
    { intros d (ls' & H1 & H2 & _). rewrite <- (text_in src f ls D Hls).
      rewrite (text_in src f ls' D H1). auto. }
    exists (new ++ [f]). split.
    { rewrite flat_map_app. simpl. rewrite app_nil_r. unfold code at 2. rewrite (text_in src f ls); auto. }
    split; [apply nodup_app; auto; [repeat constructor; auto|]; intros x [->|[]] Hn; apply (A x Hn); left; auto|].
    split; [intros x; rewrite V, in_app_iff; simpl; tauto|].
    split; [intros x Hx; apply in_app_or in Hx as [Hx|[->|[]]]; auto; intros Hn; apply (A x Hx); right; auto|].
    split; [right; apply in_or_app; right; left; auto|].
    split.
    { intros x Hx. apply in_app_or in Hx as [Hx|[->|[]]]; [|apply rt_refl].
      destruct (F x Hx) as (d & Hd & P). eapply rt_trans; [apply rt_step, DI; exact Hd|auto]. }
    split; auto.
    split.
    { intros x d Hx Hd. rewrite in_app_iff. assert (In d (f :: g) \/ In d new) as [[->|]|].
      { apply in_app_or in Hx as [Hx|[->|[]]]; [apply (C x)|apply I, ID]; auto. }
      all: simpl; tauto. }
    intros old G l a r b El Hb. apply split_app in El as [[r1 El]|(l1 & -> & El)].
    + apply (O old) with (a := a) (r := r1); auto. intros x d [<-|Hx] Hd.
      * right. apply t_step; auto.
      * destruct (G x Hx); auto. right. eapply t_trans; eauto. apply t_step; auto.
    + destruct l1 as [|y l1]; [|destruct l1; discriminate]. inversion El; subst a r. rewrite app_nil_r.
      destruct (I b (ID b Hb)) as [[<-|K]|K]; auto.
      * exfalso. apply (AC f). apply t_step; auto.
      * destruct (G b K); auto. exfalso. apply (AC f). eapply t_trans; [apply t_step; exact Hb|auto].
  - intros _ HS. exists []. split; auto. split; [constructor|]. split; [simpl; tauto|]. split; [intros x []|].
    split; [intros d []|]. split; [intros x []|]. split; auto. split; [intros x d []|].
    intros old _ [|? ?] ? ? ? E; discriminate.
  - intros HF HS. destruct (IHpre HS) as (n1 & E1 & ND1 & V1 & A1 & I1 & F1 & S1 & C1 & O1).
    destruct (IHpre0 (firsts_tl _ _ HF) S1) as (n2 & E2 & ND2 & V2 & A2 & I2 & F2 & S2 & C2 & O2).
    exists (n1 ++ n2). split; [rewrite E1, E2, flat_map_app, app_assoc; auto|].
    split; [apply nodup_app; auto; intros x Hx Hn; apply (A2 x Hx), V1; auto|].
    split; [intros x; rewrite V2, V1, in_app_iff; tauto|].
    split; [intros x Hx Hn; apply in_app_or in Hx as [Hx|Hx]; [apply (A1 x); auto|apply (A2 x Hx), V1; auto]|].
    split.
    { intros d [Hd|Hd]; rewrite in_app_iff; [inversion Hd; subst; tauto|].
      destruct (I2 d Hd) as [K|]; auto. apply V1 in K. tauto. }
    split.
    { intros x Hx. apply in_app_or in Hx as [Hx|Hx].
      - exists f. split; [left|]; auto.
      - destruct (F2 x Hx) as (d & Hd & P). exists d. split; [right|]; auto. }
    split; auto.
    split.
    { intros x d Hx Hd. rewrite in_app_iff. apply in_app_or in Hx as [Hx|Hx].
      - destruct (C1 x d Hx Hd); auto.
      - destruct (C2 x d Hx Hd) as [K|]; auto. apply V1 in K. tauto. }
    intros old G l a r b El Hb. apply split_app in El as [[r1 El]|(l3 & -> & El)].
    + apply (O1 old) with (a := a) (r := r1); auto. intros x Hx. apply (G x f); auto. left; auto.
    + destruct (O2 (old ++ n1)) with (l := l3) (a := a) (r := r) (b := b) as [K|K]; auto.
      * intros x d Hx Hd. rewrite in_app_iff. apply V1 in Hx as [Hx|Hx]; auto.
        destruct (G x d Hx); auto. right; auto.
      * rewrite in_app_iff in K |- *. tauto.
      * rewrite in_app_iff. tauto.
  - intros HF HS. destruct (IHpre (firsts_tl _ _ HF) HS) as (n2 & E2 & ND2 & V2 & A2 & I2 & F2 & S2 & C2 & O2).
    exists n2. split; auto. split; auto. split; auto. split; auto.
    split; [intros d [Hd|Hd]; [discriminate|auto]|].
    split; [intros x Hx; destruct (F2 x Hx) as (d & Hd & P); exists d; split; [right|]; auto|].
    split; auto. split; auto. intros old G. apply O2. intros x d Hx Hd. apply (G x d Hx). right; auto.
  - intros HF HS. destruct (IHpre (firsts_tl _ _ HF) HS) as (n2 & E2 & ND2 & V2 & A2 & I2 & F2 & S2 & C2 & O2).
    assert (n2 = []) as ->.
    { destruct n2 as [|x n2]; auto. exfalso. destruct (F2 x (or_introl eq_refl)) as (d & Hd & _).
      exact (HF [] t ls d eq_refl Hd). }
    exists []. split; [rewrite E2; reflexivity|]. split; auto. split; auto. split; auto.
    split; [intros d [Hd|Hd]; [discriminate|auto]|]. split; [intros x []|].
    split; auto. split; auto. intros old _ [|? ?] ? ? ? E; discriminate.
Qed.

Lemma pre_amalgam e g out std bs : pre src [] e g out -> amalgam src e = Some (Single std bs) ->
  exists order, out = flat_map (code src) order /\ Permutation order (map fst bs) /\ in_order src order.
Proof.
  intros P A. destruct (pre_ok _ _ _ _ P) as (new & E & ND & V & _ & I & F & S & C & O); [intros x []|].
  destruct (amalgam_acyclic src e std bs D AC A) as (NB & IB & _).
  exists new. split; auto. split.
  - apply NoDup_Permutation; auto. intros x. rewrite IB. split; auto. intros N.
    assert (CL : forall a b, needs src a b -> In a new -> In b new).
    { induction 1 as [a b Hab|a|a b c _ IH1 _ IH2]; auto. intros Ha. destruct (C a b Ha Hab) as [[]|]; auto. }
    apply (CL e); auto. destruct I as [[]|]; auto.
  - intros l a r b El Hb. destruct (O []) with (l := l) (a := a) (r := r) (b := b) as [[]|]; auto.
Qed.
End Pre.

(** ** Telling that there is no cycle *)

Definition climbs (k : ident -> nat) (src : source) : bool :=
  forallb (fun x => forallb (fun b => Nat.ltb (k b) (k (fst x))) (file_includes (snd x))) src.

Lemma climbs_acyclic k src : climbs k src = true -> acyclic src.
Proof.
  intros H a P. assert (L : forall a b, by_way src a b -> k b < k a).
  { induction 1 as [x y (ls & H1 & H2 & _)|x y z _ I1 _ I2]; [|lia].
    unfold climbs in H. rewrite forallb_forall in H. apply H in H1. simpl in H1.
    rewrite forallb_forall in H1. apply file_includes_in, H1 in H2. apply Nat.ltb_lt in H2. auto. }
  specialize (L a a P). lia.
Qed.

Definition no_late (ls : list line) : bool :=
  (fix go (seen : bool) (ls : list line) :=
     match ls with
     | [] => true
     | LInc _ :: ls' => negb seen && go seen ls'
     | LStd _ :: ls' => go seen ls'
     | LCode _ :: ls' => go true ls'
     end) false ls.

Lemma no_late_firsts src : forallb (fun x => no_late (snd x)) src = true -> includes_first src.
Proof.
  intros H f l t r h Hi. rewrite forallb_forall in H. apply H in Hi. simpl in Hi.
  unfold no_late in Hi. revert Hi. generalize false. induction l as [|x l IH]; intros b; simpl.
  - clear. induction r as [|x r IH]; simpl; auto. destruct x; simpl; [discriminate| |];
      intros K [E|E]; try discriminate; apply IH; auto.
  - destruct x; [rewrite andb_true_iff; intros [_ K]; eapply IH; exact K|apply IH|apply IH].
Qed.

Lemma once_nodup l : NoDup (once [] l).
Proof.
  enough (H : forall l seen, NoDup (once seen l) /\ forall x, In x (once seen l) -> ~ In x seen) by apply H.
  clear l. induction l as [|x l IH]; intros seen; simpl; [split; [constructor|auto]|].
  destruct (memb x seen) eqn:E; [apply IH|]. destruct (IH (x :: seen)) as [N A].
  split.
  - constructor; auto. intros H. apply (A x H). left; auto.
  - intros y [->|Hy]; [apply memb_false; auto|]. intros K. apply (A y Hy). right; auto.
Qed.
