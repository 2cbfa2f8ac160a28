(** * Which orders of the fields are accepted *)
From Coq Require Import ZifyBool ZifyNat Permutation.
From Verif Require Import Read Write Static WSpec Typing PropDefs MoreSpec OrderSpec.
From Verif Require Import ReadFacts ReadMore Safety StaticSpec StaticDeps StaticWf OrderMore.

Lemma f_list_declared l : f_list (declared l) = map (fun q => (m_id q, m_ty q, m_ck q)) l.
Proof. induction l as [|[[[i t] k] v] l IH]; cbn [declared f_list map m_id m_ty m_ck]; congruence. Qed.

Lemma accepted_each szw l : accepted_fields szw (declared l) = forallb (fun q => accepted_ty szw (m_ck q) (m_ty q)) l.
Proof. induction l as [|[[[i t] k] v] l IH]; cbn [declared accepted_fields forallb m_ty m_ck]; congruence. Qed.

Lemma sizes_each l : sizes_fields (declared l) = forallb (fun q => sizes_ty (m_ty q)) l.
Proof. induction l as [|[[[i t] k] v] l IH]; cbn [declared sizes_fields forallb m_ty]; congruence. Qed.

Lemma wnested_each l : wnested_fields (declared l) <-> Forall (fun q => wnested_ty (m_ty q)) l.
Proof.
  induction l as [|[[[i t] k] v] l IH]; cbn [declared wnested_fields]; [split; auto|]. rewrite IH.
  split; [intros []; constructor; auto|intros H; inversion H; auto].
Qed.

Lemma lists_each gs l : In gs (lists_fields (declared l)) <-> exists q, In q l /\ In gs (lists_ty (m_ty q)).
Proof.
  induction l as [|[[[i t] k] v] l IH]; cbn [declared lists_fields].
  - split; [intros []|intros (q & [] & _)].
  - rewrite in_app_iff, IH. split.
    + intros [H|(q & Hq & H)]; [exists (i, t, k, v)|exists q]; simpl; auto.
    + intros (q & [<-|Hq] & H); eauto.
Qed.

Lemma forallb_perm {A} (f : A -> bool) l l' : Permutation l l' -> forallb f l = forallb f l'.
Proof.
  induction 1; simpl; auto; try congruence.
  destruct (f x), (f y); auto.
Qed.

Lemma nodup_perm l l' : Permutation l l' -> NoDup (f_ids (declared l)) -> NoDup (f_ids (declared l')).
Proof. rewrite !declared_ids. intros P. apply Permutation_NoDup, Permutation_map, P. Qed.

Lemma in_perm l l' x : Permutation l l' -> In x (f_list (declared l')) -> In x (f_list (declared l)).
Proof. rewrite !f_list_declared. intros P. apply Permutation_in, Permutation_map, Permutation_sym, P. Qed.

Lemma order_accepted szw l l' : Permutation l l' -> named (declared l) -> accepted szw (declared l) = true ->
  (accepted szw (declared l') = true <-> uses_earlier_or_itself (declared l')).
Proof.
  intros P [N1 N2] H. unfold accepted in *. apply Bool.andb_true_iff in H as [H1 H2].
  assert (H2' : accepted_fields szw (declared l') = true).
  { rewrite accepted_each in *. rewrite <- (forallb_perm _ _ _ P). auto. }
  pose proof (accepted_nest_plain _ _ H2) as NP. pose proof (accepted_nest_plain _ _ H2') as NP'.
  assert (N' : named (declared l')).
  { split.
    - rewrite declared_ids in *. intros K. apply N1.
      eapply Permutation_in; [apply Permutation_map, Permutation_sym, P|auto].
    - intros id t k K. eapply N2. eapply in_perm; eauto. }
  apply accepted_list_named in H1; [|auto|split; auto]. destruct H1 as (D & S & _).
  rewrite H2', Bool.andb_true_r, accepted_list_named by auto. split; [tauto|]. intros U.
  split; [eapply nodup_perm; eauto|]. split; auto. destruct S as [S1 S2]. split.
  - rewrite declared_len in *. rewrite <- (Permutation_length P). auto.
  - intros id t k K. eapply S2. eapply in_perm; eauto.
Qed.

Lemma order_wf l l' : Permutation l l' -> wf (declared l) = true -> typed (declared l) = true ->
  (wf (declared l') = true <-> uses_earlier (declared l')).
Proof.
  intros P H T.
  assert (HW : wnested_fields (declared l)) by (eapply typed_wnested; exact T).
  assert (HW' : wnested_fields (declared l')).
  { rewrite wnested_each in *. eapply Permutation_Forall; eauto. }
  rewrite wf_iff in * by auto. destruct H as [S H]. split.
  - intros [_ K]. apply K. simpl. auto.
  - intros U. split; [rewrite sizes_each in *; rewrite <- (forallb_perm _ _ _ P); auto|].
    intros gs [<-|Hg]; [split; auto; eapply nodup_perm; eauto; apply H; simpl; auto|].
    apply H. simpl. right. rewrite lists_each in *. destruct Hg as (q & Hq & Hg). exists q. split; auto.
    eapply Permutation_in; [apply Permutation_sym, P|auto].
Qed.

(** ** Types *)

Definition tsame (seen : list ident) (G G' : tenv) : Prop := forall i, memb i seen = true -> tlookup G i = tlookup G' i.

Lemma typed_same :
  (forall t seen G G', wf_ty seen t = true -> tsame seen G G' -> typed_ty G t = typed_ty G' t) /\
  (forall fs : fields, True) /\
  (forall al seen G G', wf_alts seen al = true -> tsame seen G G' -> typed_alts G al = typed_alts G' al).
Proof.
  assert (HL : forall l seen G G', len_wf seen l = true -> tsame seen G G' -> len_typed G l = len_typed G' l).
  { intros [i|f ids] seen G G' H S; auto. simpl in *. rewrite (S i H). auto. }
  apply schema_mutind; auto.
  - intros e l b seen G G' H S. cbn [wf_ty typed_ty] in *. apply andb_prop in H as [_ H]. eauto.
  - intros fs IH r l b seen G G' H S. cbn [wf_ty typed_ty] in *. apply andb_prop in H as [_ H].
    rewrite (HL l seen G G'); auto.
  - intros b IH p ids seen G G' H S. cbn [wf_ty typed_ty] in *. apply andb_prop in H as [_ H].
    rewrite (IH seen G G'); auto.
  - intros g al IH seen G G' H S. cbn [wf_ty typed_ty] in *. apply andb_prop in H as [Hg H].
    rewrite (IH seen G G') by auto. f_equal. destruct g as [i s cs|f r ids cs|brs]; auto.
    simpl in *. rewrite (S i Hg). auto.
  - intros t IH k al IHa seen G G' H S. cbn [wf_alts typed_alts] in *. apply andb_prop in H as [H1 H2].
    rewrite (IH seen G G'), (IHa seen G G') by auto. auto.
Qed.

Definition tenv_of (l : list member) : tenv := map (fun q => (m_id q, m_ty q)) l.

Lemma tenv_lookup l : NoDup (map m_id l) -> forall i t,
  tlookup (tenv_of l) i = Some t <-> In (i, t) (map (fun q => (m_id q, m_ty q)) l).
Proof.
  induction l as [|[[[j u] k] w] l IH]; intros N i t; cbn [tenv_of map tlookup m_id m_ty In].
  - split; [discriminate|tauto].
  - inversion N as [|? ? N1 N2]; subst. specialize (IH N2 i t). unfold tenv_of in IH.
    cbn [m_id] in N1. destruct (String.eqb_spec j i) as [->|D].
    + split; [intros [= <-]; auto|]. intros [[= <-]|H]; auto. exfalso. apply N1.
      apply in_map_iff in H as (q & [= E1 E2] & Hq). rewrite <- E1. apply in_map. auto.
    + rewrite IH. split; auto. intros [[= E1 E2]|H]; auto. congruence.
Qed.

Lemma typed_each T l : forall seen G, wf_fields seen (declared l) = true -> tsame seen G T ->
  (forall q, In q l -> tlookup T (m_id q) = Some (m_ty q)) ->
  typed_fields G (declared l) = forallb (fun q => typed_ty T (m_ty q) && constr_ok (m_ty q) (m_ck q)) l.
Proof.
  induction l as [|[[[i t] k] v] l IH]; intros seen G H S HT; auto.
  cbn [declared wf_fields typed_fields forallb m_ty m_ck] in *.
  apply andb_prop in H as [H H2]. apply andb_prop in H as [H0 H1].
  rewrite (proj1 typed_same t seen G T H1 S). f_equal.
  apply (IH (i :: seen)); auto.
  - intros j Hj. cbn [tlookup]. destruct (String.eqb_spec i j) as [->|D].
    + symmetry. apply (HT (j, t, k, v)). simpl. auto.
    + apply S. apply memb_iff in Hj as [E|E]; [congruence|apply memb_iff; auto].
  - intros q Hq. apply HT. simpl. auto.
Qed.

Lemma order_typed l l' : Permutation l l' -> wf (declared l) = true -> wf (declared l') = true ->
  typed (declared l) = typed (declared l').
Proof.
  intros P H H'. unfold typed.
  destruct (wf_fields_ids _ _ H) as [N _]. rewrite declared_ids in N.
  assert (X : forall q, In q l -> tlookup (tenv_of l) (m_id q) = Some (m_ty q)).
  { intros q Hq. apply tenv_lookup; auto. apply (in_map (fun q => (m_id q, m_ty q))) in Hq. exact Hq. }
  rewrite (typed_each (tenv_of l) l [] []); auto; [|intros i Hi; discriminate].
  rewrite (typed_each (tenv_of l) l' [] []); auto; [|intros i Hi; discriminate|].
  - apply forallb_perm. auto.
  - intros q Hq. apply X. eapply Permutation_in; [apply Permutation_sym, P|auto].
Qed.

Lemma order_follows l l' : Permutation l l' -> wf (declared l) = true -> typed (declared l) = true ->
  (wf (declared l') = true /\ typed (declared l') = true <-> uses_earlier (declared l')).
Proof.
  intros P H T. rewrite <- (order_wf l l') by auto. split; [tauto|]. intros H'. split; auto.
  rewrite <- (order_typed l l'); auto.
Qed.

Lemma order_refuse c l l' : Permutation l l' ->
  wf (declared l) = true -> wf (declared l') = true ->
  typed (declared l) = true -> has_fields (declared l) (held l) ->
  ((exists out, wmem (stream_cast c (declared l) (held l)) = (Ok tt, out)) <->
   (exists out, wmem (stream_cast c (declared l') (held l')) = (Ok tt, out))).
Proof.
  intros P H H' T V. apply any_order_refuse; auto. rewrite <- (order_typed l l'); auto.
Qed.
