(** * Runs cut off by an exception *)
From Coq Require Import Lia ZifyBool ZifyNat.
From Verif Require Import UserThrowSpec Typing UserFacts UserWrite UserRead UserLog UserLogRead UserFail UserHalt.
Import ListNotations.

(** The same answers again; when there are no more, [keep]: go on somehow, else: throw. *)
Definition again (fit : Z -> list Z -> list Z) (keep : bool) : host :=
  mkH (list uevent)
    (fun s n => match s with
                | OnRead _ r :: s' => (option_map (option_map (fit n)) r, s')
                | _ => (if keep then Some None else None, [])
                end)
    (fun s bs => match s with
                 | OnWrite _ r :: s' => (r, s')
                 | _ => (if keep then Some false else None, [])
                 end)
    (fun s n => match s with
                | OnAlloc _ r :: s' => (r, s')
                | _ => (if keep then Some tt else None, [])
                end)
    (fun s f args => match s with
                     | OnNum _ _ r :: s' => (r, s')
                     | _ => (if keep then Some 0 else None, [])
                     end)
    (fun s p args => match s with
                     | OnTest _ _ r :: s' => (r, s')
                     | _ => (if keep then Some false else None, [])
                     end)
    (fun s p v => match s with
                  | OnCheck _ _ r :: s' => (r, s')
                  | _ => (if keep then Some false else None, [])
                  end).

Definition fits_in (fit : Z -> list Z -> list Z) (x : uevent) : Prop :=
  match x with OnRead n (Some (Some bs)) => fit n bs = bs | _ => True end.

Definition calm (x : uevent) : Prop := threw x = false.

Lemma calm_said x : calm x -> exists q, said_of x = [q] /\ about q = question_of x.
Proof.
  unfold calm. destruct x as [n [[bs|]|]|bs [[]|]|n [u|]|f args [z|]|p args [b|]|p v [b|]]; simpl;
    intros H; try discriminate; eexists; split; reflexivity.
Qed.

Lemma said_calm q : exists x, calm x /\ said_of x = [q] /\ question_of x = about q.
Proof.
  destruct q.
  - exists (OnRead n (Some (Some []))). repeat split.
  - exists (OnRead n (Some None)). repeat split.
  - exists (OnAlloc n (Some tt)). repeat split.
  - exists (OnWrite bs (Some true)). repeat split.
  - exists (OnWrite bs (Some false)). repeat split.
  - exists (OnNum f args (Some z)). repeat split.
  - exists (OnTest p args (Some b)). repeat split.
  - exists (OnCheck p v (Some b)). repeat split.
Qed.

(** Nothing throws any more. *)
Lemma no_throw {E A} H (I : h_st H -> Prop) (p : uprog E A) :
  (forall s n, I s -> fst (h_read H s n) <> None /\ I (snd (h_read H s n))) ->
  (forall s bs, I s -> fst (h_write H s bs) <> None /\ I (snd (h_write H s bs))) ->
  (forall s n, I s -> fst (h_alloc H s n) <> None /\ I (snd (h_alloc H s n))) ->
  (forall s f args, I s -> fst (h_num H s f args) <> None /\ I (snd (h_num H s f args))) ->
  (forall s f args, I s -> fst (h_test H s f args) <> None /\ I (snd (h_test H s f args))) ->
  (forall s f v, I s -> fst (h_check H s f v) <> None /\ I (snd (h_check H s f v))) ->
  forall s, I s -> fst (fst (urun H p s)) <> Throw.
Proof.
  intros Hr Hw Ha Hn Ht Hc.
  induction p as [a|e| | |n e k IH|n k IH|bs e k IH|f args k IH|f args k IH|f v k IH]; intros s Hs;
    cbn [urun]; try discriminate.
  - destruct (Hr s n Hs) as (N & Hs'). destruct (h_read H s n) as [[[bs|]|] s1]; simpl in *;
      [|discriminate|congruence].
    specialize (IH bs s1 Hs'). destruct (urun H (k bs) s1) as [[o1 s2] e1]. exact IH.
  - destruct (Ha s n Hs) as (N & Hs'). destruct (h_alloc H s n) as [[u|] s1]; simpl in *; [|congruence].
    specialize (IH s1 Hs'). destruct (urun H k s1) as [[o1 s2] e1]. exact IH.
  - destruct (Hw s bs Hs) as (N & Hs'). destruct (h_write H s bs) as [[[]|] s1]; simpl in *;
      [|discriminate|congruence].
    specialize (IH s1 Hs'). destruct (urun H k s1) as [[o1 s2] e1]. exact IH.
  - destruct (Hn s f args Hs) as (N & Hs'). destruct (h_num H s f args) as [[z|] s1]; simpl in *; [|congruence].
    specialize (IH z s1 Hs'). destruct (urun H (k z) s1) as [[o1 s2] e1]. exact IH.
  - destruct (Ht s f args Hs) as (N & Hs'). destruct (h_test H s f args) as [[z|] s1]; simpl in *; [|congruence].
    specialize (IH z s1 Hs'). destruct (urun H (k z) s1) as [[o1 s2] e1]. exact IH.
  - destruct (Hc s f v Hs) as (N & Hs'). destruct (h_check H s f v) as [[z|] s1]; simpl in *; [|congruence].
    specialize (IH z s1 Hs'). destruct (urun H (k z) s1) as [[o1 s2] e1]. exact IH.
Qed.

Lemma again_calm {E A} fit (p : uprog E A) s : Forall calm s ->
  fst (fst (urun (again fit true) p s)) <> Throw.
Proof.
  apply (no_throw (again fit true) (Forall calm)); clear s; intros s;
    [intros n|intros bs|intros n|intros f args|intros f args|intros f v]; intros Hs; simpl;
    (destruct s as [|[m r|m r|m r|m a r|m a r|m a r] s]; simpl; inversion Hs as [|? ? Hx Hs']; subst;
     try (split; [discriminate|constructor]);
     (split; [|exact Hs']); destruct r; [discriminate|exfalso; discriminate Hx]).
Qed.

(** [p] gets to [p'] with the answers [ev], and [p'] asks [q]. *)
Inductive gets {E A} : uprog E A -> list uevent -> uprog E A -> Prop :=
| gets_0 p : gets p [] p
| gets_read n e k bs ev p' : gets (k bs) ev p' -> gets (URead n e k) (OnRead n (Some (Some bs)) :: ev) p'
| gets_alloc n k u ev p' : gets k ev p' -> gets (UAlloc n k) (OnAlloc n (Some u) :: ev) p'
| gets_write bs e k ev p' : gets k ev p' -> gets (UWrite bs e k) (OnWrite bs (Some true) :: ev) p'
| gets_num f args k z ev p' : gets (k z) ev p' -> gets (UNum f args k) (OnNum f args (Some z) :: ev) p'
| gets_test f args k b ev p' : gets (k b) ev p' -> gets (UTest f args k) (OnTest f args (Some b) :: ev) p'
| gets_check f v k b ev p' : gets (k b) ev p' -> gets (UCheck f v k) (OnCheck f v (Some b) :: ev) p'.

Definition asks {E A} (p : uprog E A) (q : question) : Prop :=
  match p with
  | URead n _ _ => q = QRead n
  | UAlloc n _ => q = QMem n
  | UWrite bs _ _ => q = QWrite bs
  | UNum f args _ => q = QNum f args
  | UTest f args _ => q = QTest f args
  | UCheck f v _ => q = QCheck f v
  | _ => False
  end.

(** Where a run was when it asked. *)
Lemma run_gets {E A} H (p : uprog E A) : forall s o s' ev0 x rest,
  urun H p s = (o, s', ev0 ++ x :: rest) -> exists p', gets p ev0 p' /\ asks p' (question_of x).
Proof.
  induction p as [a|e| | |n e k IH|n k IH|bs e k IH|f args k IH|f args k IH|f v k IH];
    intros s o s' ev0 x rest Hr; cbn [urun] in Hr; try (destruct ev0; discriminate).
  - destruct (h_read H s n) as [[[bs|]|] s1].
    + destruct (urun H (k bs) s1) as [[o1 s2] e1] eqn:E1. injection Hr as _ _ Hr.
      destruct ev0 as [|y ev0]; injection Hr as <- Hr.
      * eexists. split; [apply gets_0|reflexivity].
      * subst e1. destruct (IH _ _ _ _ _ _ _ E1) as (p' & G & Q). exists p'. split; [constructor|]; auto.
    + injection Hr as _ _ Hr. destruct ev0 as [|y [|z ev0]]; injection Hr as <- Hr; try discriminate.
      eexists. split; [apply gets_0|reflexivity].
    + injection Hr as _ _ Hr. destruct ev0 as [|y [|z ev0]]; injection Hr as <- Hr; try discriminate.
      eexists. split; [apply gets_0|reflexivity].
  - destruct (h_alloc H s n) as [[u|] s1].
    + destruct (urun H k s1) as [[o1 s2] e1] eqn:E1. injection Hr as _ _ Hr.
      destruct ev0 as [|y ev0]; injection Hr as <- Hr.
      * eexists. split; [apply gets_0|reflexivity].
      * subst e1. destruct (IH _ _ _ _ _ _ E1) as (p' & G & Q). exists p'. split; [constructor|]; auto.
    + injection Hr as _ _ Hr. destruct ev0 as [|y [|z ev0]]; injection Hr as <- Hr; try discriminate.
      eexists. split; [apply gets_0|reflexivity].
  - destruct (h_write H s bs) as [[[]|] s1].
    + destruct (urun H k s1) as [[o1 s2] e1] eqn:E1. injection Hr as _ _ Hr.
      destruct ev0 as [|y ev0]; injection Hr as <- Hr.
      * eexists. split; [apply gets_0|reflexivity].
      * subst e1. destruct (IH _ _ _ _ _ _ E1) as (p' & G & Q). exists p'. split; [constructor|]; auto.
    + injection Hr as _ _ Hr. destruct ev0 as [|y [|z ev0]]; injection Hr as <- Hr; try discriminate.
      eexists. split; [apply gets_0|reflexivity].
    + injection Hr as _ _ Hr. destruct ev0 as [|y [|z ev0]]; injection Hr as <- Hr; try discriminate.
      eexists. split; [apply gets_0|reflexivity].
  - destruct (h_num H s f args) as [[u|] s1].
    + destruct (urun H (k u) s1) as [[o1 s2] e1] eqn:E1. injection Hr as _ _ Hr.
      destruct ev0 as [|y ev0]; injection Hr as <- Hr.
      * eexists. split; [apply gets_0|reflexivity].
      * subst e1. destruct (IH _ _ _ _ _ _ _ E1) as (p' & G & Q). exists p'. split; [constructor|]; auto.
    + injection Hr as _ _ Hr. destruct ev0 as [|y [|z ev0]]; injection Hr as <- Hr; try discriminate.
      eexists. split; [apply gets_0|reflexivity].
  - destruct (h_test H s f args) as [[u|] s1].
    + destruct (urun H (k u) s1) as [[o1 s2] e1] eqn:E1. injection Hr as _ _ Hr.
      destruct ev0 as [|y ev0]; injection Hr as <- Hr.
      * eexists. split; [apply gets_0|reflexivity].
      * subst e1. destruct (IH _ _ _ _ _ _ _ E1) as (p' & G & Q). exists p'. split; [constructor|]; auto.
    + injection Hr as _ _ Hr. destruct ev0 as [|y [|z ev0]]; injection Hr as <- Hr; try discriminate.
      eexists. split; [apply gets_0|reflexivity].
  - destruct (h_check H s f v) as [[u|] s1].
    + destruct (urun H (k u) s1) as [[o1 s2] e1] eqn:E1. injection Hr as _ _ Hr.
      destruct ev0 as [|y ev0]; injection Hr as <- Hr.
      * eexists. split; [apply gets_0|reflexivity].
      * subst e1. destruct (IH _ _ _ _ _ _ _ E1) as (p' & G & Q). exists p'. split; [constructor|]; auto.
    + injection Hr as _ _ Hr. destruct ev0 as [|y [|z ev0]]; injection Hr as <- Hr; try discriminate.
      eexists. split; [apply gets_0|reflexivity].
Qed.

Lemma gets_calm {E A} (p : uprog E A) ev p' : gets p ev p' -> Forall calm ev.
Proof. induction 1; constructor; auto; reflexivity. Qed.

(** The same way again. *)
Lemma gets_run {E A} fit keep (p : uprog E A) ev p' s : gets p ev p' -> Forall (fits_in fit) ev ->
  urun (again fit keep) p (ev ++ s) =
  (let '(o, s', e) := urun (again fit keep) p' s in (o, s', ev ++ e)).
Proof.
  induction 1; intros Hf; simpl; try (inversion Hf as [|? ? Hx Hf']; subst; simpl in Hx; rewrite ?Hx, IHgets by auto);
    try (destruct (urun (again fit keep) p' s) as [[o1 s1] e1]; reflexivity).
  destruct (urun (again fit keep) p s) as [[o1 s1] e1]; reflexivity.
Qed.

(** One answer, and somehow on. *)
Lemma asks_on {E A} fit (p : uprog E A) x : asks p (question_of x) -> calm x -> fits_in fit x ->
  exists o s rest, urun (again fit true) p [x] = (o, s, x :: rest).
Proof.
  unfold calm. destruct p; simpl; try tauto; destruct x as [m [[b|]|]|m [[]|]|m [u|]|g a [z|]|g a [z|]|g a [z|]];
    simpl; intros Q Hc Hf; try discriminate; injection Q as ?; subst; try (rewrite Hf);
    try match goal with |- context [urun ?h ?q ?l] => destruct (urun h q l) as [[o1 s1] e1] end; eauto.
Qed.

Lemma asks_throw {E A} fit (p : uprog E A) q : asks p q ->
  exists x, urun (again fit false) p [] = (Throw, [], [x]) /\ threw x = true /\ question_of x = q.
Proof. destruct p; simpl; try tauto; intros ->; eexists; repeat split; reflexivity. Qed.

(** A run that throws has asked something, and any answer leads to a run that does not. *)
Lemma throw_on {E A} fit H (p : uprog E A) s s' ev : urun H p s = (Throw, s', ev) ->
  Forall (fits_in fit) ev ->
  exists ev0 x, ev = ev0 ++ [x] /\ threw x = true /\ Forall calm ev0 /\
    forall x', calm x' -> question_of x' = question_of x -> fits_in fit x' ->
      exists o s1 rest, urun (again fit true) p (ev0 ++ [x']) = (o, s1, ev0 ++ x' :: rest) /\ o <> Throw.
Proof.
  intros R Hf. destruct (urun_throw H p s _ _ _ R) as (T1 & T2).
  destruct (proj1 T1 eq_refl) as (x & Hx & Ht). apply in_split in Hx. destruct Hx as (ev0 & rest & ->).
  pose proof (T2 _ _ _ eq_refl Ht) as ->. exists ev0, x.
  destruct (run_gets H p _ _ _ _ _ _ R) as (p' & G & Q). pose proof (gets_calm _ _ _ G) as Hc.
  repeat (split; auto). intros x' Hx' Ha Hfx. rewrite <- Ha in Q.
  destruct (asks_on fit p' x' Q Hx' Hfx) as (o & s1 & rest & R').
  assert (urun (again fit true) p (ev0 ++ [x']) = (o, s1, ev0 ++ x' :: rest)) as R2.
  { rewrite (gets_run fit true p ev0 p' [x'] G), R'; auto. apply Forall_app in Hf. tauto. }
  exists o, s1, rest. split; auto.
  pose proof (again_calm fit p (ev0 ++ [x'])) as N. rewrite R2 in N. apply N.
  apply Forall_app. auto.
Qed.

(** And any question of a run can be the last. *)
Lemma throw_at {E A} fit H (p : uprog E A) s o s' ev0 x rest :
  urun H p s = (o, s', ev0 ++ x :: rest) -> Forall (fits_in fit) ev0 ->
  exists y, urun (again fit false) p ev0 = (Throw, [], ev0 ++ [y]) /\ threw y = true /\ question_of y = question_of x.
Proof.
  intros R Hf. destruct (run_gets H p _ _ _ _ _ _ R) as (p' & G & Q).
  destruct (asks_throw fit p' _ Q) as (y & R' & Ht & Ha). exists y. repeat (split; auto).
  pose proof (gets_run fit false p ev0 p' [] G Hf) as R2. rewrite app_nil_r, R' in R2. exact R2.
Qed.

(** Where the answers split. *)
Lemma said_split ev : forall l1 q l2, flat_map said_of ev = l1 ++ q :: l2 ->
  Forall calm ev ->
  exists ev0 x rest, ev = ev0 ++ x :: rest /\ flat_map said_of ev0 = l1 /\ question_of x = about q /\ said_of x = [q].
Proof.
  induction ev as [|y ev IH]; intros l1 q l2 E1 Hc; simpl in *; [destruct l1; discriminate|].
  inversion Hc as [|? ? Hy Hc']; subst. destruct (calm_said y Hy) as (r & Er & Ea). rewrite Er in E1.
  destruct l1 as [|r' l1]; simpl in E1; injection E1 as <- E1.
  - exists [], y, ev. auto.
  - destruct (IH _ _ _ E1 Hc') as (ev0 & x & rest & -> & E2 & E3 & E4).
    exists (y :: ev0), x, rest. simpl. rewrite Er. simpl. repeat split; auto. congruence.
Qed.

Lemma run_calm {E A} H (p : uprog E A) s o s' ev : urun H p s = (o, s', ev) -> o <> Throw -> Forall calm ev.
Proof.
  intros R N. destruct (urun_throw H p s _ _ _ R) as (T & _). apply Forall_forall. intros x Hx.
  unfold calm. destruct (threw x) eqn:Ex; auto. exfalso. apply N. apply T. eauto.
Qed.

(** ** Writing *)
Definition as_is (n : Z) (bs : list Z) : list Z := bs.
Lemma as_is_fits ev : Forall (fits_in as_is) ev.
Proof. apply Forall_forall. intros x _. destruct x as [n [[bs|]|]|?|?|?|?|?]; simpl; auto. Qed.

Lemma write_thrown c fs vs H s s' ev :
  wf fs = true -> typed fs = true -> plain_fields fs = true -> has_fields fs vs ->
  urun H (u_stream_cast c fs vs) s = (Throw, s', ev) ->
  exists ev0 x, ev = ev0 ++ [x] /\ threw x = true /\
    forall q, about q = question_of x -> exists rest, whole_write c fs vs (flat_map said_of ev0 ++ q :: rest).
Proof.
  intros Hw Ht Hp Hv R. destruct (throw_on as_is H _ _ _ _ R (as_is_fits _)) as (ev0 & x & -> & Hx & _ & Hgo).
  exists ev0, x. repeat split; auto. intros q Hq. destruct (said_calm q) as (x' & Hc & Es & Ea).
  destruct (Hgo x' Hc ltac:(congruence)) as (o & s1 & rest & R' & N).
  { pose proof (as_is_fits [x']) as F. inversion F; auto. }
  destruct (any_write c fs vs _ _ _ _ _ Hw Ht Hv R') as (N1 & N2 & _).
  exists (flat_map said_of rest). unfold whole_write.
  replace (flat_map said_of ev0 ++ q :: flat_map said_of rest) with (flat_map said_of (ev0 ++ x' :: rest)).
  2: { rewrite flat_map_app. simpl. rewrite Es. auto. }
  destruct o as [a|[r id]| | |].
  - left. destruct a. exact (proj1 (write_log c fs vs Hw Ht Hv) _ _ _ _ R').
  - right. exists r, id. exact (proj1 (write_halts c fs vs r id Hw Ht Hv) _ _ _ _ R').
  - exfalso. apply N2; auto.
  - exfalso. apply N1; auto.
  - exfalso. apply N; auto.
Qed.

Lemma write_throws c fs vs l1 q l2 :
  wf fs = true -> typed fs = true -> has_fields fs vs -> whole_write c fs vs (l1 ++ q :: l2) ->
  exists H s s' ev0 x, urun H (u_stream_cast c fs vs) s = (Throw, s', ev0 ++ [x]) /\
    flat_map said_of ev0 = l1 /\ threw x = true /\ question_of x = about q.
Proof.
  intros Hw Ht Hv W.
  assert (exists o s' ev, urun by_script (u_stream_cast c fs vs) (l1 ++ q :: l2) = (o, s', ev) /\
            o <> Throw /\ flat_map said_of ev = l1 ++ q :: l2) as (o & s' & ev & R & N & L).
  { destruct W as [W|(r & id & W)].
    - destruct (proj2 (write_log c fs vs Hw Ht Hv) _ W) as (ev & R & L). do 3 eexists.
      split; [exact R|]. split; [discriminate|exact L].
    - destruct (proj2 (write_halts c fs vs r id Hw Ht Hv) _ W) as (ev & R & L). do 3 eexists.
      split; [exact R|]. split; [discriminate|exact L]. }
  destruct (said_split ev _ _ _ L (run_calm _ _ _ _ _ _ R N)) as (ev0 & x & rest & -> & E1 & E2 & _).
  destruct (throw_at as_is _ _ _ _ _ _ _ _ R (as_is_fits _)) as (y & R' & Hy & Ey).
  exists (again as_is false), ev0, [], ev0, y. repeat split; auto. congruence.
Qed.

(** ** Reading *)
Definition trim (n : Z) (bs : list Z) : list Z :=
  map (fun b => b mod 256) (firstn (Z.to_nat n) (bs ++ repeat 0 (Z.to_nat n))).

Lemma trim_ok n bs : length (trim n bs) = Z.to_nat n /\ Forall byte_ok (trim n bs).
Proof.
  unfold trim. split.
  - rewrite map_length, firstn_length, app_length, repeat_length. lia.
  - apply Forall_forall. intros x Hx. apply in_map_iff in Hx. destruct Hx as (y & <- & _).
    apply Z.mod_pos_bound. lia.
Qed.

Lemma trim_id n bs : length bs = Z.to_nat n -> Forall byte_ok bs -> trim n bs = bs.
Proof.
  intros L B. unfold trim. rewrite <- L, firstn_app, firstn_all, Nat.sub_diag, firstn_O, app_nil_r.
  apply mod_bytes. auto.
Qed.

Lemma again_hands_over keep : hands_over (again trim keep).
Proof.
  intros s n bs s' R. simpl in R.
  destruct s as [|[m r|m r|m r|m a r|m a r|m a r] s]; try (destruct keep; discriminate).
  destruct r as [[b|]|]; try discriminate. simpl in R. injection R as <- _. apply trim_ok.
Qed.

Lemma handed_fits {E A} H (p : uprog E A) : hands_over H -> forall s o s' ev,
  urun H p s = (o, s', ev) -> Forall (fits_in trim) ev.
Proof.
  intros Hh.
  induction p as [a|e| | |n e k IH|n k IH|bs e k IH|f args k IH|f args k IH|f v k IH];
    intros s o s' ev R; cbn [urun] in R; try (injection R as <- <- <-; constructor).
  - destruct (h_read H s n) as [[[bs|]|] s1] eqn:Eh; [|injection R as <- <- <-; repeat constructor..].
    destruct (urun H (k bs) s1) as [[o1 s2] e1] eqn:E1. injection R as <- <- <-. constructor; eauto.
    destruct (Hh _ _ _ _ Eh). apply trim_id; auto.
  - destruct (h_alloc H s n) as [[u|] s1]; [|injection R as <- <- <-; repeat constructor].
    destruct (urun H k s1) as [[o1 s2] e1] eqn:E1. injection R as <- <- <-. constructor; eauto. exact I.
  - destruct (h_write H s bs) as [[[]|] s1]; [|injection R as <- <- <-; repeat constructor..].
    destruct (urun H k s1) as [[o1 s2] e1] eqn:E1. injection R as <- <- <-. constructor; eauto. exact I.
  - destruct (h_num H s f args) as [[u|] s1]; [|injection R as <- <- <-; repeat constructor].
    destruct (urun H (k u) s1) as [[o1 s2] e1] eqn:E1. injection R as <- <- <-. constructor; eauto. exact I.
  - destruct (h_test H s f args) as [[u|] s1]; [|injection R as <- <- <-; repeat constructor].
    destruct (urun H (k u) s1) as [[o1 s2] e1] eqn:E1. injection R as <- <- <-. constructor; eauto. exact I.
  - destruct (h_check H s f v) as [[u|] s1]; [|injection R as <- <- <-; repeat constructor].
    destruct (urun H (k u) s1) as [[o1 s2] e1] eqn:E1. injection R as <- <- <-. constructor; eauto. exact I.
Qed.

Lemma gives_event q bs : gives q bs -> exists x, calm x /\ said_of x = [q] /\ question_of x = about q /\
  given x = bs /\ fits_in trim x.
Proof.
  destruct q; simpl; intros G; try subst bs.
  - destruct G. exists (OnRead n (Some (Some bs))). repeat split; auto. simpl. apply trim_id; auto.
  - exists (OnRead n (Some None)). repeat split.
  - exists (OnAlloc n (Some tt)). repeat split.
  - exists (OnWrite bs0 (Some true)). repeat split.
  - exists (OnWrite bs0 (Some false)). repeat split.
  - exists (OnNum f args (Some z)). repeat split.
  - exists (OnTest p args (Some b)). repeat split.
  - exists (OnCheck p v (Some b)). repeat split.
Qed.

Lemma read_thrown c fs H s s' ev :
  wf fs = true -> typed fs = true -> plain_fields fs = true -> hands_over H ->
  urun H (u_struct_cast c fs) s = (Throw, s', ev) ->
  exists ev0 x, ev = ev0 ++ [x] /\ threw x = true /\
    forall q bs, about q = question_of x -> gives q bs ->
      exists rest out, whole_read c fs (flat_map said_of ev0 ++ q :: rest) (flat_map given ev0 ++ bs ++ out).
Proof.
  intros Hw Ht Hp Hh R.
  destruct (throw_on trim H _ _ _ _ R (handed_fits H _ Hh _ _ _ _ R)) as (ev0 & x & -> & Hx & _ & Hgo).
  exists ev0, x. repeat split; auto. intros q bs Hq Hg.
  destruct (gives_event q bs Hg) as (x' & Hc & Es & Ea & Eg & Hf).
  destruct (Hgo x' Hc ltac:(congruence) Hf) as (o & s1 & rest & R' & N).
  pose proof (again_hands_over true) as Hh'.
  destruct (any_read c fs _ _ _ _ _ Hw Ht Hh' R') as (N1 & N2 & _).
  exists (flat_map said_of rest), (flat_map given rest). unfold whole_read.
  replace (flat_map said_of ev0 ++ q :: flat_map said_of rest) with (flat_map said_of (ev0 ++ x' :: rest)).
  2: { rewrite flat_map_app. simpl. rewrite Es. auto. }
  replace (flat_map given ev0 ++ bs ++ flat_map given rest) with (flat_map given (ev0 ++ x' :: rest)).
  2: { rewrite flat_map_app. simpl. rewrite Eg. auto. }
  destruct o as [a|[r id]| | |].
  - left. exists a. exact (proj1 (read_log c fs Hw Ht) _ _ _ _ _ Hh' R').
  - right. exists r, id. exact (proj1 (read_fails c fs r id Hw Ht) _ _ _ _ Hh' R').
  - exfalso. apply N2; auto.
  - exfalso. apply N1; auto.
  - exfalso. apply N; auto.
Qed.

Lemma read_throws c fs l1 q l2 out :
  wf fs = true -> typed fs = true -> whole_read c fs (l1 ++ q :: l2) out ->
  exists H s s' ev0 x more, hands_over H /\
    urun H (u_struct_cast c fs) s = (Throw, s', ev0 ++ [x]) /\
    flat_map said_of ev0 = l1 /\ out = flat_map given ev0 ++ more /\ threw x = true /\ question_of x = about q.
Proof.
  intros Hw Ht W.
  assert (exists o s' ev, urun by_script_in (u_struct_cast c fs) (out ++ [], l1 ++ q :: l2) = (o, s', ev) /\
            o <> Throw /\ flat_map said_of ev = l1 ++ q :: l2 /\ flat_map given ev = out)
    as (o & s' & ev & R & N & L & G).
  { destruct W as [(vs & C & Hd & ->)|(r & id & W)].
    - destruct (proj2 (read_log c fs Hw Ht) vs _ [] C Hd) as (ev & R & L & G). do 3 eexists.
      split; [exact R|]. split; [discriminate|]. auto.
    - destruct (proj2 (read_fails c fs r id Hw Ht) _ _ [] W) as (ev & R & L & G). do 3 eexists.
      split; [exact R|]. split; [discriminate|]. auto. }
  pose proof (handed_fits _ _ script_hands_over _ _ _ _ R) as Hf.
  destruct (said_split ev _ _ _ L (run_calm _ _ _ _ _ _ R N)) as (ev0 & x & rest & -> & E1 & E2 & _).
  apply Forall_app in Hf. destruct Hf as (Hf & _).
  destruct (throw_at trim _ _ _ _ _ _ _ _ R Hf) as (y & R' & Hy & Ey).
  exists (again trim false), ev0, [], ev0, y, (flat_map given (x :: rest)).
  split; [apply again_hands_over|]. repeat split; auto.
  - rewrite <- G, flat_map_app. auto.
  - congruence.
Qed.
