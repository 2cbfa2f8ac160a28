(** * Proofs about payloads with fields added *)
From Coq Require Import String Lia.
From Verif Require Import ReadFacts ReadLemmas ReadMore ReadFinal RExactFacts LawMore DamageFacts PropDefs PayloadSpec PayloadFacts.
Import ListNotations.
Open Scope Z_scope.

Lemma older_read c fs gs bs vs us rest : wf (f_app fs gs) = true -> Forall byte_ok bs ->
  length vs = f_len fs -> rmem (struct_cast c (f_app fs gs)) bs = (Ok (vs ++ us), rest) ->
  rmem (struct_cast c fs) bs = (Ok vs, enc_fields (c_wire c) gs us ++ rest).
Proof.
  intros W B L H. apply read_sound in H; auto. destruct H as [V ->].
  unfold valid in V. rewrite valid_split in V by auto. destruct V as [V _].
  rewrite enc_split by auto. rewrite <- app_assoc. pose proof (wf_app_l _ _ W) as W1.
  apply read_complete; auto.
  apply (valid_fields_agree c fs [] (mk_env (f_app fs gs) (vs ++ us))); auto.
  intros i Hi. rewrite app_nil_r in Hi. apply memb_In in Hi. apply lookup_mk_env_app; auto.
Qed.

Lemma newer_read c fs gs ps vs : wf (f_app fs gs) = true -> Forall byte_ok ps ->
  rmem (struct_cast c fs) ps = (Ok vs, []) ->
  match rmem (struct_cast c (f_app fs gs)) ps with
  | (Ok ws, rest) => rest = [] /\ exists us, ws = vs ++ us /\ enc_fields (c_wire c) gs us = []
  | (Err (r, id), _) => In id (f_ids gs)
  | _ => True
  end.
Proof.
  intros W B H. apply read_sound in H; eauto using wf_app_l. destruct H as [V ->]. rewrite app_nil_r in *.
  pose proof (damage_read c fs gs vs [] W V) as D. rewrite app_nil_r in D.
  assert (L : length vs = f_len fs).
  { eapply valid_fields_length. exact V. }
  destruct (rmem (struct_cast c (f_app fs gs)) (enc_fields (c_wire c) fs vs)) as [[ws|[r id]| | |] rest] eqn:E;
    cbn [fst] in D; auto.
  destruct D as (us&->&_). apply read_sound in E; auto. destruct E as [_ E].
  rewrite enc_split in E by auto. rewrite <- app_assoc in E.
  rewrite <- (app_nil_r (enc_fields (c_wire c) fs vs)) in E at 1. apply app_inv_head in E.
  symmetry in E. apply app_eq_nil in E. destruct E. split; auto. exists us. auto.
Qed.

Lemma payload_versions c pre post inner more id l b bs vp ps vq rest ws us :
  wf (opaque pre id l b post) = true -> wf (embedded pre id (f_app inner more) post) = true ->
  wf (f_app pre post) = true -> length vp = f_len pre -> length ws = f_len inner -> Forall byte_ok bs ->
  rmem (struct_cast c (opaque pre id l b post)) bs = (Ok (vp ++ VSeq (map VZ ps) :: vq), rest) ->
  rmem (struct_cast c (f_app inner more)) ps = (Ok (ws ++ us), []) ->
  rmem (struct_cast c inner) ps = (Ok ws, enc_fields (c_wire c) more us) /\
  rmem (struct_cast c (embedded pre id (f_app inner more) post)) bs = (Ok (vp ++ VRec (ws ++ us) :: vq), rest).
Proof.
  intros W1 W2 W3 L1 L2 B H1 H2. split.
  - assert (Bp : Forall byte_ok ps).
    { destruct (contained c pre post id l b bs vp ps vq rest W1 W3 L1 B H1) as (hd&tl&->&_).
      apply Forall_app in B. destruct B as [_ B]. apply Forall_app in B. tauto. }
    rewrite <- (app_nil_r (enc_fields (c_wire c) more us)). eapply older_read; eauto.
    exact (inner_wf pre post _ id W2).
  - eapply opened; eauto.
Qed.
