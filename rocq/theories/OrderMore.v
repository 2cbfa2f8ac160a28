(** * Fields declared in any acceptable order *)
From Coq Require Import ZifyBool ZifyNat Permutation.
From Verif Require Import Read Write Static WSpec Typing PropDefs MoreSpec Laws DegenSpec OrderSpec.
From Verif Require Import BytesFacts ProgFacts ReadFacts ReadMore ReadLemmas ReadFinal Safety RExactFacts.
From Verif Require Import GroupSpec WriteFacts WriteMain WriteLoc WriteRel AppendFacts EquivFacts LawMore GroupFacts.
From Verif Require Import OrderFacts.

Definition m_id (q : member) : ident := let '(i, _, _, _) := q in i.
Definition m_ty (q : member) : fty := let '(_, t, _, _) := q in t.
Definition m_ck (q : member) : constr := let '(_, _, k, _) := q in k.
Definition one (q : member) : fields := FCons (m_id q) (m_ty q) (m_ck q) FNil.

Lemma declared_cons q l : declared (q :: l) = f_app (one q) (declared l).
Proof. destruct q as [[[i t] k] v]. reflexivity. Qed.

Lemma declared_app l l' : declared (l ++ l') = f_app (declared l) (declared l').
Proof. induction l as [|[[[i t] k] v] l IH]; cbn [declared app f_app]; congruence. Qed.

Lemma declared_len l : f_len (declared l) = length l.
Proof. induction l as [|[[[i t] k] v] l IH]; cbn [declared f_len length]; congruence. Qed.

Lemma declared_ids l : f_ids (declared l) = map m_id l.
Proof. induction l as [|[[[i t] k] v] l IH]; cbn [declared f_ids map m_id]; congruence. Qed.

Lemma held_len l : length (held l) = length l.
Proof. apply map_length. Qed.

Lemma any_lookup l : NoDup (map m_id l) -> forall i v,
  lookup (mk_env (declared l) (held l)) i = Some v <-> In (i, v) (map (fun q => (m_id q, snd q)) l).
Proof.
  induction l as [|[[[j t] k] u] l IH]; intros N i v; cbn [declared held map mk_env lookup snd m_id In].
  - split; [discriminate|tauto].
  - inversion N as [|? ? N1 N2]; subst. specialize (IH N2 i v). fold (held l).
    cbn [m_id] in N1. destruct (String.eqb_spec j i) as [->|D].
    + split; [intros [= <-]; auto|]. intros [[= <-]|H]; auto. exfalso. apply N1.
      apply in_map_iff in H as (q & [= E1 E2] & Hq). rewrite <- E1. apply in_map. auto.
    + rewrite IH. split; auto. intros [[= E1 E2]|H]; auto. congruence.
Qed.

Section Any.
Variables (c : cfg) (l l' : list member).
Hypothesis (HP : Permutation l l').
Notation F := (declared l).
Notation G := (declared l').
Notation V := (held l).
Notation W := (held l').
Hypothesis (HF : wf F = true).

Lemma any_env i : lookup (mk_env F V) i = lookup (mk_env G W) i.
Proof.
  destruct (wf_fields_ids _ _ HF) as [N _]. rewrite declared_ids in N.
  assert (N' : NoDup (map m_id l')) by (eapply Permutation_NoDup; [apply Permutation_map, HP|auto]).
  assert (X : forall v, lookup (mk_env F V) i = Some v <-> lookup (mk_env G W) i = Some v).
  { intros v. rewrite !any_lookup by auto. split; apply Permutation_in; apply Permutation_map; auto.
    apply Permutation_sym. auto. }
  destruct (lookup (mk_env F V) i) as [v|] eqn:E.
  - symmetry. apply X. auto.
  - destruct (lookup (mk_env G W) i) as [v|]; auto. exact (proj2 (X v) eq_refl).
Qed.

Lemma valid_each E k : valid_fields c E (declared k) (held k) <->
  Forall (fun q => valid_ty c E (m_ty q) (snd q) /\ holds (m_ck q) (snd q)) k.
Proof.
  induction k as [|[[[i t] x] v] k IH]; cbn [declared held map valid_fields]; [split; auto|].
  fold (held k). rewrite IH. split.
  - intros (A & B & C). constructor; auto.
  - intros H. inversion H; subst. cbn in *. tauto.
Qed.

Lemma any_valid : valid c F V -> valid c G W.
Proof.
  unfold valid. intros H.
  assert (X : valid_fields c (mk_env G W) F V).
  { refine (valid_fields_refs c _ _ F [] V HF _ H). intros i _. apply any_env. }
  rewrite valid_each in *. eapply Permutation_Forall; eauto.
Qed.

(** ** Writing *)

Hypothesis (HT : typed F = true) (HV : has_fields F V).

Lemma any_derived i : is_derived F i = is_derived G i.
Proof.
  clear HF HT HV. induction HP as [|q k k' P IH|q r k|k1 k2 k3 P1 IH1 P2 IH2]; auto.
  - rewrite !declared_cons, !(derived_split (one q)), IH by auto. auto.
  - rewrite !declared_cons, !(derived_split (one q)), !(derived_split (one r)), !(derived_split (one q)).
    destruct (is_derived (one q) i), (is_derived (one r) i); auto.
  - rewrite IH1; auto.
Qed.

Lemma any_cond i : has_cond_obligation F i = has_cond_obligation G i.
Proof.
  clear HF HT HV. induction HP as [|q k k' P IH|q r k|k1 k2 k3 P1 IH1 P2 IH2]; auto.
  - rewrite !declared_cons, !(cond_split (one q)), IH by auto. auto.
  - rewrite !declared_cons, !(cond_split (one q)), !(cond_split (one r)), !(cond_split (one q)).
    destruct (has_cond_obligation (one q) i), (has_cond_obligation (one r) i); auto.
  - rewrite IH1; auto.
Qed.

Lemma any_claims i : Permutation (claims c i F V) (claims c i G W).
Proof.
  clear HF HT HV. induction HP as [|[[[a b] d] e] k k' P IH|[[[a b] d] e] [[[a' b'] d'] e'] k|k1 k2 k3 P1 IH1 P2 IH2]; auto;
    cbn [declared held map claims snd].
  - apply Permutation_app_head. apply IH. auto.
  - rewrite !app_assoc. apply Permutation_app_tail. apply Permutation_app_comm.
  - eapply Permutation_trans; [apply IH1; auto|apply IH2; auto].
Qed.

Definition sound (q : member) : Prop :=
  (exists Gm, typed_fields Gm (one q) = true) /\ has_fields (one q) [snd q].

Lemma any_sound : Forall sound l.
Proof.
  clear HF HP. unfold typed in HT. revert HT. generalize (@nil (ident * fty)).
  revert HV. induction l as [|[[[i t] k] v] m IH]; intros HV' e H; constructor.
  - cbn [declared typed_fields has_fields held map snd] in *.
    apply andb_prop in H as [H _]. split; [exists e|cbn; tauto].
    cbn [one m_id m_ty m_ck typed_fields]. rewrite H. auto.
  - cbn [declared typed_fields has_fields held map snd] in *. apply andb_prop in H as [_ H].
    eapply IH; [tauto|exact H].
Qed.

Lemma fold_sound i k : Forall sound k -> forall d,
  derive_fold c i (declared k) (held k) d = Some (fold_left record (claims c i (declared k) (held k)) d).
Proof.
  induction 1 as [|q k [(Gm & T) H] _ IH]; intros d; auto.
  rewrite declared_cons. change (held (q :: k)) with ([snd q] ++ held k).
  rewrite fold_split by auto. rewrite (derive_fold_claims c i (one q) Gm [snd q] d T H). rewrite IH.
  rewrite <- fold_left_app. f_equal. f_equal. destruct q as [[[a b] x] y]. cbn. rewrite app_nil_r. auto.
Qed.

Lemma any_value i u n : derive_value c F V i u n = derive_value c G W i u n.
Proof.
  unfold derive_value. destruct u; auto.
  pose proof any_sound as S. rewrite (fold_sound i l S).
  rewrite (fold_sound i l' (Permutation_Forall HP S)).
  pose proof (verdict_perm _ _ (any_claims i)) as P.
  pose proof (record_verdict (claims c i F V)) as R1. pose proof (record_verdict (claims c i G W)) as R2.
  rewrite <- P in R2. cbv zeta in R1, R2. destruct (verdict (claims c i F V)) as [z|].
  - destruct R1 as [-> ->], R2 as [-> ->]. auto.
  - rewrite R1, R2. auto.
Qed.

Lemma verify_perm e i w k k' : Permutation k k' ->
  verify_cond e i w (declared k) (held k) = verify_cond e i w (declared k') (held k').
Proof.
  intros P. induction P as [|q k k' P IH|q r k|k1 k2 k3 P1 IH1 P2 IH2]; auto.
  - rewrite !declared_cons. change (held (q :: k)) with ([snd q] ++ held k).
    change (held (q :: k')) with ([snd q] ++ held k'). rewrite !verify_split, IH by auto. auto.
  - rewrite !declared_cons. change (held (q :: r :: k)) with ([snd q] ++ [snd r] ++ held k).
    change (held (r :: q :: k)) with ([snd r] ++ [snd q] ++ held k). rewrite !verify_split by auto.
    rewrite <- !both_assoc. f_equal. apply both_comm.
  - congruence.
Qed.

Lemma any_verify i w : verify_cond (mk_env F V) i w F V = verify_cond (mk_env G W) i w G W.
Proof.
  rewrite <- (verify_perm (mk_env G W) i w l l' HP).
  apply (verify_env _ _ i w F [] V HF). intros j _. apply any_env.
Qed.

Lemma any_block gs seen ws : wf_fields seen gs = true ->
  write_fields c F V gs ws = write_fields c G W gs ws.
Proof.
  intros H. apply (cx_fields c F G V W (fun _ => True) (fun _ => True)) with (seen := seen);
    auto using any_env, any_derived, any_value, any_cond, any_verify.
Qed.

(** What is written for one member. *)
Definition sent (q : member) : val :=
  slot (hd_error (claims c (m_id q) F V)) (m_ck q) (m_ty q) (emit_ty c (m_ty q) (snd q)).

Lemma any_emitted : emitted c F V = map sent l.
Proof.
  unfold emitted.
  assert (X : forall cl k, emit_fields c cl (declared k) (held k) =
    map (fun q => slot (cl (m_id q)) (m_ck q) (m_ty q) (emit_ty c (m_ty q) (snd q))) k).
  { clear. intros cl. induction k as [|[[[i t] x] v] k IH]; auto.
    cbn [declared held map emit_fields m_id m_ty m_ck snd]. f_equal. exact IH. }
  exact (X (fun id => hd_error (claims c id F V)) l).
Qed.

Lemma one_sent q out : In q l -> wmem (write_fields c F V (one q) [snd q]) = (Ok tt, out) ->
  out = enc_ty (c_wire c) (m_ty q) (sent q).
Proof.
  intros Hq H. apply in_split in Hq as (l1 & l2 & E).
  assert (K : good True false
    (enc_fields (c_wire c) (one q) (emit_fields c (fun id => hd_error (claims c id F V)) (one q) [snd q]))
    (wmem (write_fields c F V (one q) [snd q]))).
  { apply (block_good c F V (declared l1) (one q) (declared l2) (held l1) [snd q] (held l2)); auto.
    - rewrite E, declared_app, declared_cons. auto.
    - rewrite E. unfold held. rewrite map_app. auto.
    - rewrite held_len, declared_len. auto. }
  rewrite H in K. apply good_ok in K; auto. rewrite K. cbn. apply app_nil_r.
Qed.

Lemma one_wf q : In q l -> exists seen, wf_fields seen (one q) = true.
Proof.
  intros Hq. apply in_split in Hq as (l1 & l2 & E). pose proof HF as H. unfold wf in H.
  rewrite E, declared_app, declared_cons in H.
  apply wf_fields_app in H as [_ H]. apply wf_fields_app in H as [H _]. eauto.
Qed.

Lemma write_each Fx Vx e k out :
  (forall q o, In q k -> wmem (write_fields c Fx Vx (one q) [snd q]) = (Ok tt, o) -> o = e q) ->
  (wmem (write_fields c Fx Vx (declared k) (held k)) = (Ok tt, out) <->
   (forall q, In q k -> wmem (write_fields c Fx Vx (one q) [snd q]) = (Ok tt, e q)) /\
   out = concat (map e k)).
Proof.
  revert out. induction k as [|q k IH]; intros out He.
  - cbn. split; [intros [= <-]; split; [tauto|auto]|intros [_ ->]; auto].
  - rewrite declared_cons. change (held (q :: k)) with ([snd q] ++ held k).
    rewrite write_fields_app by auto. rewrite wmem_bind_ok. split.
    + intros ([] & o1 & o2 & H1 & H2 & ->).
      apply IH in H2; [|intros; apply He; simpl; auto]. destruct H2 as [H2 ->].
      assert (o1 = e q) as -> by (apply He; simpl; auto). split; auto.
      intros r [<-|Hr]; auto.
    + intros [H ->]. exists tt, (e q), (concat (map e k)). split; [apply H; simpl; auto|].
      split; auto. apply IH; [intros; apply He; simpl; auto|]. split; auto. intros r Hr. apply H. simpl; auto.
Qed.

Lemma enc_each o e k : enc_fields o (declared k) (map e k) = concat (map (fun q => enc_ty o (m_ty q) (e q)) k).
Proof. induction k as [|[[[i t] x] v] k IH]; auto. cbn [declared map enc_fields concat m_ty]. congruence. Qed.

Lemma any_write out : wmem (stream_cast c F V) = (Ok tt, out) ->
  exists e, emitted c F V = map e l /\ out = enc_fields (c_wire c) F (map e l) /\
    wmem (stream_cast c G W) = (Ok tt, enc_fields (c_wire c) G (map e l')).
Proof.
  intros H. exists sent. split; [apply any_emitted|]. unfold stream_cast in *.
  apply (write_each F V (fun q => enc_ty (c_wire c) (m_ty q) (sent q))) in H; [|intros; apply one_sent; auto].
  destruct H as [H ->]. split; [symmetry; apply enc_each|].
  rewrite enc_each.
  assert (X : forall q, In q l' -> wmem (write_fields c G W (one q) [snd q]) =
    (Ok tt, enc_ty (c_wire c) (m_ty q) (sent q))).
  { intros q Hq. apply (Permutation_in _ (Permutation_sym HP)) in Hq.
    destruct (one_wf q Hq) as (seen & Hs). rewrite <- (any_block _ seen) by auto. auto. }
  apply (write_each G W (fun q => enc_ty (c_wire c) (m_ty q) (sent q))).
  - intros q o Hq Ho. rewrite X in Ho by auto. congruence.
  - split; auto.
Qed.
End Any.

Lemma any_order_valid c l l' : Permutation l l' -> wf (declared l) = true -> wf (declared l') = true ->
  (valid c (declared l) (held l) <-> valid c (declared l') (held l')).
Proof. intros P H H'. split; apply any_valid; auto. apply Permutation_sym; auto. Qed.

Lemma any_order_read c l l' bs rest : Permutation l l' ->
  wf (declared l) = true -> wf (declared l') = true -> Forall byte_ok bs ->
  rmem (struct_cast c (declared l)) bs = (Ok (held l), rest) ->
  bs = enc_fields (c_wire c) (declared l) (held l) ++ rest /\
  rmem (struct_cast c (declared l')) (enc_fields (c_wire c) (declared l') (held l') ++ rest) =
    (Ok (held l'), rest).
Proof.
  intros P H H' Hb Hr. apply read_sound in Hr as [Hv ->]; auto. split; auto.
  apply read_complete; auto. eapply any_valid; eauto.
Qed.

Lemma any_order_write c l l' out : Permutation l l' ->
  wf (declared l) = true -> typed (declared l) = true -> has_fields (declared l) (held l) ->
  wmem (stream_cast c (declared l) (held l)) = (Ok tt, out) ->
  exists e, emitted c (declared l) (held l) = map e l /\
    out = enc_fields (c_wire c) (declared l) (map e l) /\
    wmem (stream_cast c (declared l') (held l')) = (Ok tt, enc_fields (c_wire c) (declared l') (map e l')).
Proof. intros. eapply (any_write c l l'); auto. Qed.

Lemma has_each k : has_fields (declared k) (held k) <-> Forall (fun q => has_ty (m_ty q) (snd q)) k.
Proof.
  induction k as [|[[[i t] x] v] k IH]; cbn [declared held map has_fields]; [split; auto|].
  fold (held k). rewrite IH. split; [intros []; constructor; auto|intros H; inversion H; auto].
Qed.

Lemma any_order_refuse c l l' : Permutation l l' ->
  wf (declared l) = true -> wf (declared l') = true ->
  typed (declared l) = true -> typed (declared l') = true -> has_fields (declared l) (held l) ->
  ((exists out, wmem (stream_cast c (declared l) (held l)) = (Ok tt, out)) <->
   (exists out, wmem (stream_cast c (declared l') (held l')) = (Ok tt, out))).
Proof.
  intros P H H' T T' V. split; intros [out Ho].
  - destruct (any_order_write c l l' out P H T V Ho) as (e & _ & _ & E). eauto.
  - assert (V' : has_fields (declared l') (held l')).
    { rewrite has_each in *. eapply Permutation_Forall; eauto. }
    destruct (any_order_write c l' l out (Permutation_sym P) H' T' V' Ho) as (e & _ & _ & E). eauto.
Qed.
