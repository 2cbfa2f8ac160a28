(** * A message made of parts *)
From Coq Require Import String Ascii Lia.
From Verif Require Import Read Write WSpec Typing PropDefs MoreDefs MoreSpec Laws GroupSpec SplitSpec BytesFacts ProgFacts ReadFacts ReadMore ReadLemmas Safety.
From Verif Require Import WriteFacts WriteMain WriteLoc WriteRel AppendFacts EquivFacts LawMore GroupFacts.

(** ** Names *)

Lemma wf_wider fs : forall s s', wf_fields s fs = true -> incl s s' ->
  (forall i, In i (f_ids fs) -> ~ In i s') -> wf_fields s' fs = true.
Proof.
  induction fs as [|id t k fs IH]; intros s s' H Hs Hi; auto.
  assert (ND := proj1 (wf_fields_ids _ _ H)). cbn [wf_fields f_ids] in *. inversion ND; subst.
  apply andb_prop in H as [H A3]. apply andb_prop in H as [A1 A2].
  rewrite (IH (id :: s)); auto.
  - rewrite (proj1 wf_refs t s s' A2).
    + rewrite andb_true_r. destruct (memb id s') eqn:E; auto.
      apply memb_In in E. exfalso. apply (Hi id); simpl; auto.
    + intros i Hr. apply Hs. eapply (proj1 refs_seen); eauto.
  - intros i [->|Hx]; simpl; auto.
  - intros i Hx [->|Hy]; auto. apply (Hi i); simpl; auto.
Qed.

Lemma wf_join a b : forall s, wf_fields s a = true -> wf_fields (rev (f_ids a) ++ s) b = true ->
  wf_fields s (f_app a b) = true.
Proof.
  induction a as [|id t k a IH]; intros s; cbn [f_app wf_fields f_ids rev]; auto.
  intros H1 H2. apply andb_prop in H1 as [H1 A3]. rewrite H1. simpl. apply IH; auto.
  rewrite <- app_assoc in H2. auto.
Qed.

Lemma wf_two a b : wf a = true -> wf b = true -> (forall i, In i (f_ids a) -> ~ In i (f_ids b)) ->
  wf (f_app a b) = true.
Proof.
  intros Ha Hb D. apply wf_join; auto. apply wf_wider with (s := []); auto.
  - intros i [].
  - intros i Hi Hx. rewrite app_nil_r in Hx. apply in_rev in Hx. apply (D i); auto.
Qed.

Fixpoint xs (n : nat) : string := match n with O => EmptyString | S n' => String "x"%char (xs n') end.

Lemma xs_len n : String.length (xs n) = n.
Proof. induction n; simpl; auto. Qed.

Lemma some_name (l : list ident) : exists i, ~ In i l.
Proof.
  assert (H : forall m, exists n, (m <= n)%nat /\ forall i, In i l -> (String.length i < n)%nat).
  { induction l as [|x l IH]; intros m.
    - exists m. split; auto. intros i [].
    - destruct (IH (Nat.max m (S (String.length x)))) as (n & L & H). exists n. split; [lia|].
      intros i [<-|Hi]; auto. lia. }
  destruct (H 0%nat) as (n & _ & Hn). exists (xs n). intros Hi. apply Hn in Hi. rewrite xs_len in Hi. lia.
Qed.

(** ** Two parts *)

Lemma dom_updates gs fs : forall e vs, dom gs e -> dom gs (updates e fs vs).
Proof. induction fs; intros e [|v vs]; simpl; auto. intros H. apply IHfs, dom_update; auto. Qed.

Section Two.
Variables (c : cfg) (a b : fields).
Hypothesis (Ha : wf a = true) (Hb : wf b = true) (D : forall i, In i (f_ids a) -> ~ In i (f_ids b)).

Lemma read_two : req (struct_cast c (f_app a b))
  (rbind (struct_cast c a) (fun vs => rbind (struct_cast c b) (fun ws => RRet (vs ++ ws)))).
Proof.
  eapply req_trans; [apply struct_cast_app, wf_two; auto|].
  apply req_bind; [apply req_refl|]. intros vs. apply req_bind; [|intros; apply req_refl].
  apply read_fields_agree with (seen := []); auto.
  - intros i; discriminate.
  - apply dom_updates. intros i Hi. apply (dom_mk_env (f_app a b)); [apply default_fields_length|].
    rewrite f_ids_app. apply in_or_app; auto.
  - apply dom_mk_env, default_fields_length.
Qed.

Lemma write_two va vb : has_fields a va -> has_fields b vb ->
  stream_cast c (f_app a b) (va ++ vb) = wbind (stream_cast c a va) (fun _ => stream_cast c b vb).
Proof.
  intros Hva Hvb. destruct (some_name (f_ids a ++ f_ids b)) as [id Hid].
  assert (Ia : ~ In id (f_ids a)) by (intros H; apply Hid, in_or_app; auto).
  assert (Ib : ~ In id (f_ids b)) by (intros H; apply Hid, in_or_app; auto).
  assert (W := wf_two a b Ha Hb D).
  unfold stream_cast. rewrite write_fields_app by (apply has_fields_length; auto).
  assert (E1 : write_fields c a va a va = write_fields c (f_app a b) (va ++ vb) a va).
  { apply (inner_ctx c FNil a b id [] va vb); simpl; auto.
    apply (wf_two (FCons id (FStruct a) CNone FNil) b); auto.
    - unfold wf in *. cbn [wf_fields wf_ty]. rewrite Ha. auto.
    - simpl. intros i [<-|[]]; auto. }
  assert (E2 : write_fields c b vb b vb = write_fields c (f_app a b) (va ++ vb) b vb).
  { assert (E := inner_ctx c a b FNil id va vb []). rewrite !app_nil_r, ReadMore.f_app_nil in E.
    apply E; simpl; auto. apply wf_two; auto.
    - unfold wf in *. cbn [wf_fields wf_ty]. rewrite Hb. auto.
    - simpl. intros i Hi [<-|[]]; auto. }
  rewrite E1, E2. auto.
Qed.

End Two.

(** ** Any number of parts *)

Lemma has_join a b vb : has_fields b vb -> forall va, has_fields a va -> has_fields (f_app a b) (va ++ vb).
Proof. intros Hb. induction a; intros [|v va]; cbn; auto; try tauto. intros [H1 H2]. split; auto. Qed.


Lemma parts_ids fss : f_ids (parts fss) = concat (map f_ids fss).
Proof. induction fss; simpl; auto. rewrite f_ids_app. congruence. Qed.

Lemma parts_step a fss : NoDup (concat (map f_ids (a :: fss))) ->
  NoDup (concat (map f_ids fss)) /\ forall i, In i (f_ids a) -> ~ In i (f_ids (parts fss)).
Proof. simpl. rewrite parts_ids. apply nodup_apart. Qed.

Lemma parts_wf fss : Forall (fun fs => wf fs = true) fss -> NoDup (concat (map f_ids fss)) ->
  wf (parts fss) = true.
Proof.
  induction 1; intros N; auto. apply parts_step in N as [N D]. simpl. apply wf_two; auto.
Qed.

Lemma parts_req c fss : Forall (fun fs => wf fs = true) fss -> NoDup (concat (map f_ids fss)) ->
  req (struct_cast c (parts fss)) (rbind (read_msgs c fss) (fun vss => RRet (concat vss))).
Proof.
  induction 1 as [|a fss Ha Hf IH]; intros N; [constructor|].
  apply parts_step in N as [N D]. simpl.
  eapply req_trans; [apply read_two; auto; apply parts_wf; auto|].
  eapply req_trans; [|apply req_sym, rbind_assoc].
  apply req_bind; [apply req_refl|]. intros vs.
  eapply req_trans; [|apply req_sym, rbind_assoc].
  eapply req_trans; [apply req_bind; [apply IH; auto|intros; apply req_refl]|].
  eapply req_trans; [apply rbind_assoc|]. apply req_refl.
Qed.

Lemma parts_read c fss : Forall (fun fs => wf fs = true) fss -> NoDup (concat (map f_ids fss)) ->
  forall S alloc s, rrun S alloc (struct_cast c (parts fss)) s =
    rrun S alloc (rbind (read_msgs c fss) (fun vss => RRet (concat vss))) s.
Proof. intros. apply req_rrun, parts_req; auto. Qed.

Lemma parts_write c fss vss : Forall (fun fs => wf fs = true) fss -> NoDup (concat (map f_ids fss)) ->
  Forall2 has_fields fss vss ->
  stream_cast c (parts fss) (concat vss) = write_msgs c (combine fss vss).
Proof.
  intros W N H. induction H as [|a va fss vss Hva Hv IH]; auto.
  inversion W; subst. apply parts_step in N as [N D]. simpl.
  rewrite <- IH by auto. apply write_two; auto using parts_wf.
  clear -Hv. induction Hv; simpl; auto. apply has_join; auto.
Qed.
