(** * Proofs about messages carried as bytes *)
From Coq Require Import String Lia ZifyBool ZifyNat.
From Verif Require Import ReadFacts ReadMore ReadFinal RExactFacts LawMore WriteLoc ExactFacts PropDefs PayloadSpec.
Import ListNotations.
Open Scope Z_scope.

Lemma valid_fields_agree c fs : forall seen E E' vs, wf_fields seen fs = true ->
  agree (f_ids fs ++ seen) E E' -> (valid_fields c E fs vs <-> valid_fields c E' fs vs).
Proof.
  induction fs as [|id t k fs IH]; intros seen E E' [|v vs] W A; cbn [valid_fields]; try tauto.
  cbn [wf_fields] in W. apply andb_true_iff in W. destruct W as [W W2].
  apply andb_true_iff in W. destruct W as [_ W1].
  rewrite (valid_ty_agree c seen E E' t v W1).
  2:{ intros i Hi. apply A. apply memb_In. cbn. right. apply in_or_app. right. apply memb_In. exact Hi. }
  rewrite (IH (id :: seen) E E' vs W2); [tauto|].
  intros i Hi. apply A. apply memb_In in Hi. apply memb_In. cbn.
  apply in_app_or in Hi. cbn in Hi. rewrite in_app_iff. tauto.
Qed.

Lemma around_env pre post id t x vq i : i <> id -> forall vp, length vp = f_len pre ->
  lookup (mk_env (f_app pre (FCons id t CNone post)) (vp ++ x :: vq)) i =
  lookup (mk_env (f_app pre post) (vp ++ vq)) i.
Proof.
  intros N. induction pre as [|j u k p IH]; intros [|v l] L; cbn in L; try discriminate;
    cbn [f_app app mk_env lookup].
  - destruct (String.eqb_spec id i); congruence.
  - destruct (String.eqb j i); auto.
Qed.

(** The parts of a valid struct, judged without the field [id]. *)
Lemma valid_around c pre post id t vp vq x : length vp = f_len pre ->
  wf (f_app pre (FCons id t CNone post)) = true -> wf (f_app pre post) = true ->
  (valid c (f_app pre (FCons id t CNone post)) (vp ++ x :: vq) <->
   let E := mk_env (f_app pre post) (vp ++ vq) in
   valid_fields c E pre vp /\ valid_ty c E t x /\ valid_fields c E post vq).
Proof.
  intros L HO HR. cbn zeta. pose proof (proj1 (wf_fields_ids _ _ HO)) as N.
  rewrite f_ids_app in N. cbn [f_ids] in N. apply NoDup_remove_2 in N. rewrite in_app_iff in N.
  apply wf_fields_app in HO. destruct HO as [A B]. apply wf_fields_app in HR. destruct HR as [_ C].
  cbn [wf_fields] in B. apply andb_true_iff in B. destruct B as [B _].
  apply andb_true_iff in B. destruct B as [_ B].
  set (E1 := mk_env (f_app pre (FCons id t CNone post)) (vp ++ x :: vq)).
  set (E2 := mk_env (f_app pre post) (vp ++ vq)).
  assert (G : forall l, (forall i, In i l -> In i (f_ids pre) \/ In i (f_ids post)) -> agree l E1 E2).
  { intros l Hl i Hi. apply memb_In in Hi. apply around_env; auto. intros ->. apply Hl in Hi. tauto. }
  unfold valid. fold E1. rewrite valid_split by auto. cbn [valid_fields holds].
  rewrite (valid_fields_agree c pre [] E1 E2 vp A);
    [|apply G; intros i Hi; rewrite app_nil_r in Hi; auto].
  rewrite (valid_ty_agree c _ E1 E2 t x B);
    [|apply G; intros i Hi; rewrite app_nil_r in Hi; apply in_rev in Hi; auto].
  rewrite (valid_fields_agree c post _ E1 E2 vq C);
    [|apply G; intros i Hi; apply in_app_or in Hi; rewrite app_nil_r, <- in_rev in Hi; tauto].
  tauto.
Qed.

Lemma bytes_ok ps : Forall (ct_ok (TScalar (SInt 1 false))) (map VZ ps) <-> Forall byte_ok ps.
Proof.
  rewrite Forall_map. split; apply Forall_impl; intros z; cbn [ct_ok];
    change (sc_in (SInt 1 false) z) with ((0 <=? z) && (z <? 256)); unfold byte_ok; lia.
Qed.

Lemma bytes_enc o ps : Forall byte_ok ps ->
  flat_map (enc_ct o (TScalar (SInt 1 false))) (map VZ ps) = ps.
Proof.
  induction 1 as [|z ps B H IH]; [reflexivity|]. cbn [map flat_map]. rewrite IH.
  assert (E : enc_ct o (TScalar (SInt 1 false)) (VZ z) = [z]).
  { unfold byte_ok in B. cbn [enc_ct]. unfold wire_scalar. cbn [ssize le_enc rev app].
    change (sc_bits (SInt 1 false) z) with (z mod 256).
    rewrite (Z.mod_small z 256) by lia. rewrite (Z.mod_small z 256) by lia. destruct o; reflexivity. }
  rewrite E. reflexivity.
Qed.

Definition blob (l : lenspec) (b : option Z) : fty := FVar (TScalar (SInt 1 false)) l b.

Section Payload.
Variables (c : cfg) (pre post inner : fields) (id : ident) (l : lenspec) (b : option Z).
Let O := f_app pre (FCons id (blob l b) CNone post).
Let D := f_app pre (FCons id (FStruct inner) CNone post).
Hypothesis HO : wf O = true.
Hypothesis HD : wf D = true.
Hypothesis HR : wf (f_app pre post) = true.

Lemma inner_wf : wf inner = true.
Proof.
  unfold D in HD. apply wf_fields_app in HD. destruct HD as [_ B]. cbn [wf_fields wf_ty] in B.
  apply andb_true_iff in B. destruct B as [B _]. apply andb_true_iff in B. tauto.
Qed.

Lemma enc_O vp ps vq : length vp = f_len pre -> Forall byte_ok ps ->
  enc_fields (c_wire c) O (vp ++ VSeq (map VZ ps) :: vq) =
  enc_fields (c_wire c) pre vp ++ ps ++ enc_fields (c_wire c) post vq.
Proof.
  intros L B. unfold O, blob. rewrite enc_split by auto. cbn [enc_fields enc_ty]. rewrite bytes_enc by auto.
  reflexivity.
Qed.

Lemma enc_D vp ws vq : length vp = f_len pre ->
  enc_fields (c_wire c) D (vp ++ VRec ws :: vq) =
  enc_fields (c_wire c) pre vp ++ enc_fields (c_wire c) inner ws ++ enc_fields (c_wire c) post vq.
Proof. intros L. unfold D. rewrite enc_split by auto. reflexivity. Qed.

Lemma blob_valid E ps : valid_ty c E (blob l b) (VSeq (map VZ ps)) <->
  Forall byte_ok ps /\ len_is c E l (length ps) /\ within c b 1 (length ps).
Proof.
  unfold blob. cbn [valid_ty]. split.
  - intros (xs&[= <-]&A&B&C). rewrite map_length in B, C. apply bytes_ok in A. auto.
  - intros (A&B&C). exists (map VZ ps). rewrite map_length. split; auto. split; [apply bytes_ok|]; auto.
Qed.

Lemma payload_open bs vp ps vq rest ws : length vp = f_len pre -> Forall byte_ok bs ->
  rmem (struct_cast c O) bs = (Ok (vp ++ VSeq (map VZ ps) :: vq), rest) ->
  rmem (struct_cast c inner) ps = (Ok ws, []) ->
  rmem (struct_cast c D) bs = (Ok (vp ++ VRec ws :: vq), rest).
Proof.
  intros L Bb H1 H2. apply read_sound in H1; auto. destruct H1 as [V ->].
  unfold O in V. apply valid_around in V; auto. destruct V as (V1&V2&V3). apply blob_valid in V2.
  destruct V2 as (B&_). apply read_sound in H2; auto using inner_wf. destruct H2 as [V2 E2].
  rewrite app_nil_r in E2. rewrite enc_O, E2, <- enc_D by auto. apply read_complete; auto.
  unfold D. apply valid_around; auto. split; auto. split; auto. cbn [valid_ty]. eauto.
Qed.

Lemma payload_close bs vp vq rest ws : length vp = f_len pre -> Forall byte_ok bs ->
  rmem (struct_cast c D) bs = (Ok (vp ++ VRec ws :: vq), rest) ->
  let ps := enc_fields (c_wire c) inner ws in
  len_is c (mk_env (f_app pre post) (vp ++ vq)) l (length ps) -> within c b 1 (length ps) ->
  rmem (struct_cast c inner) ps = (Ok ws, []) /\
  rmem (struct_cast c O) bs = (Ok (vp ++ VSeq (map VZ ps) :: vq), rest).
Proof.
  intros L Bb H1 ps Hl Hb. apply read_sound in H1; auto. destruct H1 as [V ->].
  unfold D in V. apply valid_around in V; auto. destruct V as (V1&V2&V3). cbn [valid_ty] in V2.
  destruct V2 as (us&[= <-]&V2). assert (B : Forall byte_ok ps).
  { rewrite enc_D in Bb by auto. apply Forall_app in Bb. destruct Bb as [Bb _].
    apply Forall_app in Bb. destruct Bb as [_ Bb]. apply Forall_app in Bb. tauto. }
  split.
  - rewrite <- (app_nil_r ps). apply read_complete; auto using inner_wf.
  - rewrite enc_D by auto. fold ps. rewrite <- enc_O by auto. apply read_complete; auto.
    unfold O. apply valid_around; auto. split; auto. split; auto. apply blob_valid. auto.
Qed.

Lemma payload_damage bs vp ps vq rest : length vp = f_len pre -> Forall byte_ok bs ->
  rmem (struct_cast c O) bs = (Ok (vp ++ VSeq (map VZ ps) :: vq), rest) ->
  exists hd tl, bs = hd ++ ps ++ tl /\
    forall qs, Forall byte_ok qs -> length qs = length ps ->
      rmem (struct_cast c O) (hd ++ qs ++ tl) = (Ok (vp ++ VSeq (map VZ qs) :: vq), rest).
Proof.
  intros L Bb H1. apply read_sound in H1; auto. destruct H1 as [V ->].
  unfold O in V. apply valid_around in V; auto. destruct V as (V1&V2&V3). apply blob_valid in V2.
  destruct V2 as (B&Hl&Hb). rewrite enc_O by auto.
  exists (enc_fields (c_wire c) pre vp), (enc_fields (c_wire c) post vq ++ rest).
  split; [rewrite <- !app_assoc; reflexivity|]. intros qs Bq Lq.
  replace (enc_fields (c_wire c) pre vp ++ qs ++ enc_fields (c_wire c) post vq ++ rest)
    with (enc_fields (c_wire c) O (vp ++ VSeq (map VZ qs) :: vq) ++ rest)
    by (rewrite enc_O by auto; rewrite <- !app_assoc; reflexivity).
  apply read_complete; auto. unfold O. apply valid_around; auto. split; auto. split; auto.
  apply blob_valid. rewrite Lq. auto.
Qed.
End Payload.

Lemma payload_write c pre post id l b vp ps vq out : length vp = f_len pre ->
  wf (f_app pre (FCons id (blob l b) CNone post)) = true ->
  typed (f_app pre (FCons id (blob l b) CNone post)) = true ->
  has_fields (f_app pre (FCons id (blob l b) CNone post)) (vp ++ VSeq (map VZ ps) :: vq) ->
  wmem (stream_cast c (f_app pre (FCons id (blob l b) CNone post)) (vp ++ VSeq (map VZ ps) :: vq)) = (Ok tt, out) ->
  exists hd tl up uq, out = hd ++ ps ++ tl /\
    emitted c (f_app pre (FCons id (blob l b) CNone post)) (vp ++ VSeq (map VZ ps) :: vq) =
      up ++ VSeq (map VZ ps) :: uq /\ length up = f_len pre /\
    hd = enc_fields (c_wire c) pre up /\ tl = enc_fields (c_wire c) post uq.
Proof.
  intros L W T H E. pose proof H as H'. apply has_fields_app' in H'; auto. destruct H' as [_ H'].
  cbn [has_fields] in H'. destruct H' as [H' _]. unfold blob in H'. cbn [has_ty] in H'.
  apply bytes_ok in H'. apply write_ok_iff in E; auto. destruct E as [_ ->].
  unfold emitted. match goal with |- context [emit_fields c ?f _ _] => set (cl := f) end. clearbody cl.
  rewrite emit_fields_app by auto. cbn [emit_fields].
  assert (S : slot (cl id) CNone (blob l b) (emit_ty c (blob l b) (VSeq (map VZ ps))) = VSeq (map VZ ps)).
  { unfold slot, blob. cbn. destruct (cl id); reflexivity. }
  rewrite S. exists (enc_fields (c_wire c) pre (emit_fields c cl pre vp)),
    (enc_fields (c_wire c) post (emit_fields c cl post vq)), (emit_fields c cl pre vp), (emit_fields c cl post vq).
  rewrite emit_fields_length by auto. split; [|auto].
  rewrite enc_split by (rewrite emit_fields_length; auto).
  unfold blob. cbn [enc_fields enc_ty]. rewrite bytes_enc by auto. reflexivity.
Qed.

Lemma opened c pre post inner id l b bs vp ps vq rest ws :
  wf (opaque pre id l b post) = true -> wf (embedded pre id inner post) = true ->
  wf (f_app pre post) = true -> length vp = f_len pre -> Forall byte_ok bs ->
  rmem (struct_cast c (opaque pre id l b post)) bs = (Ok (vp ++ VSeq (map VZ ps) :: vq), rest) ->
  rmem (struct_cast c inner) ps = (Ok ws, []) ->
  rmem (struct_cast c (embedded pre id inner post)) bs = (Ok (vp ++ VRec ws :: vq), rest).
Proof. intros. eapply payload_open; eauto. Qed.

Lemma closed c pre post inner id l b bs vp vq rest ws :
  wf (opaque pre id l b post) = true -> wf (embedded pre id inner post) = true ->
  wf (f_app pre post) = true -> length vp = f_len pre -> Forall byte_ok bs ->
  rmem (struct_cast c (embedded pre id inner post)) bs = (Ok (vp ++ VRec ws :: vq), rest) ->
  let ps := enc_fields (c_wire c) inner ws in
  len_is c (mk_env (f_app pre post) (vp ++ vq)) l (length ps) -> within c b 1 (length ps) ->
  rmem (struct_cast c inner) ps = (Ok ws, []) /\
  rmem (struct_cast c (opaque pre id l b post)) bs = (Ok (vp ++ VSeq (map VZ ps) :: vq), rest).
Proof. intros. eapply payload_close; eauto. Qed.

Lemma contained c pre post id l b bs vp ps vq rest :
  wf (opaque pre id l b post) = true -> wf (f_app pre post) = true ->
  length vp = f_len pre -> Forall byte_ok bs ->
  rmem (struct_cast c (opaque pre id l b post)) bs = (Ok (vp ++ VSeq (map VZ ps) :: vq), rest) ->
  exists hd tl, bs = hd ++ ps ++ tl /\
    forall qs, Forall byte_ok qs -> length qs = length ps ->
      rmem (struct_cast c (opaque pre id l b post)) (hd ++ qs ++ tl) =
        (Ok (vp ++ VSeq (map VZ qs) :: vq), rest).
Proof. intros. eapply payload_damage; eauto. Qed.
