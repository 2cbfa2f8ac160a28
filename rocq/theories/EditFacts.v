(** * Proofs about a change to one field *)
From Coq Require Import String Lia.
From Verif Require Import Safety ReadFacts ReadFinal RExactFacts LawMore WriteFinal WriteLoc RTrip2 ExactFacts Rewrite PropDefs EditSpec.
Import ListNotations.
Open Scope Z_scope.

Lemma concat_pieces o fs : forall vs, concat (pieces o fs vs) = enc_fields o fs vs.
Proof. induction fs; intros [|v vs]; cbn; auto. rewrite IHfs. reflexivity. Qed.

Lemma claim_none c j t v : ~ In j (told_by t) -> claim c j t v = [].
Proof.
  intros N. assert (S : forall i, ~ In j [i] -> String.eqb i j = false).
  { intros i H. destruct (String.eqb_spec i j); auto. subst. exfalso. apply H. left. reflexivity. }
  destruct t as [t' n|e [i|f ids] b|fs|n fs|fs r [i|f ids] b|u p ids|[i s cs|f r ids cs|brs] al];
    cbn [told_by] in N; destruct v; cbn; rewrite ?(S _ N); reflexivity.
Qed.

Lemma piece_same c o cl cl' fs : forall vs vs' i j,
  length vs = f_len fs -> length vs' = f_len fs -> nth_error (f_ids fs) i = Some j ->
  nth_error vs i = nth_error vs' i -> cl j = cl' j ->
  nth_error (pieces o fs (emit_fields c cl fs vs)) i = nth_error (pieces o fs (emit_fields c cl' fs vs')) i.
Proof.
  induction fs as [|id t k fs IH]; intros [|v vs] [|v' vs'] [|i] j L L' N V C; cbn in *; try discriminate.
  - injection N as <-. injection V as <-. rewrite C. reflexivity.
  - apply (IH _ _ _ j); auto.
Qed.

Section Edit.
Variables (c : cfg) (pre post : fields) (id : ident) (t : fty) (k : constr).
Variables (vp vq : list val) (x x' : val).
Let O := f_app pre (FCons id t k post).
Hypothesis L : length vp = f_len pre.
Hypothesis W : wf O = true.
Hypothesis T : typed O = true.
Hypothesis H : has_fields O (vp ++ x :: vq).
Hypothesis H' : has_fields O (vp ++ x' :: vq).

Lemma ed_claims j : ~ In j (told_by t) -> claims c j O (vp ++ x :: vq) = claims c j O (vp ++ x' :: vq).
Proof.
  intros N. unfold O. rewrite !claims_app by auto. cbn [claims]. rewrite !claim_none by auto. reflexivity.
Qed.

Lemma ed_pieces out out' :
  wmem (stream_cast c O (vp ++ x :: vq)) = (Ok tt, out) ->
  wmem (stream_cast c O (vp ++ x' :: vq)) = (Ok tt, out') ->
  let ps := pieces (c_wire c) O (emitted c O (vp ++ x :: vq)) in
  let ps' := pieces (c_wire c) O (emitted c O (vp ++ x' :: vq)) in
  out = concat ps /\ out' = concat ps' /\
  forall i j, nth_error (f_ids O) i = Some j -> i <> f_len pre -> ~ In j (told_by t) ->
    nth_error ps i = nth_error ps' i.
Proof.
  intros E E'. cbn zeta. rewrite !concat_pieces. apply write_ok_iff in E; auto. apply write_ok_iff in E'; auto.
  split; [tauto|]. split; [tauto|]. intros i j N I J. unfold emitted. apply (piece_same _ _ _ _ _ _ _ _ j); auto.
  - apply (Safety.has_fields_length _ _ H).
  - apply (Safety.has_fields_length _ _ H').
  - rewrite <- L in I. destruct (Nat.lt_ge_cases i (length vp)) as [G|G].
    + rewrite !nth_error_app1 by auto. reflexivity.
    + rewrite !nth_error_app2 by auto. destruct (i - length vp)%nat eqn:D; [lia|reflexivity].
  - rewrite ed_claims by auto. reflexivity.
Qed.
End Edit.

Lemma emit_fields_ext c cl cl' fs : (forall j, cl j = cl' j) -> forall vs,
  emit_fields c cl fs vs = emit_fields c cl' fs vs.
Proof. intros X. induction fs as [|id t k fs IH]; intros [|v vs]; cbn; auto. rewrite X, IH. reflexivity. Qed.

Lemma cut_at {A} (a b x y : list A) : length a = length b -> a ++ x = b ++ y -> a = b /\ x = y.
Proof.
  revert b. induction a as [|h a IH]; intros [|g b] E P; cbn in *; try discriminate; auto.
  injection P as -> P. destruct (IH b) as [-> ->]; auto.
Qed.

Section Place.
Variables (c : cfg) (pre post : fields) (id : ident) (t : fty) (k : constr).
Variables (vp vq : list val) (x x' : val).
Let O := f_app pre (FCons id t k post).
Hypothesis L : length vp = f_len pre.
Hypothesis W : wf O = true.
Hypothesis T : typed O = true.
Hypothesis Free : told_by t = [].
Hypothesis Own : overwritten O id t k = false.

Let cl (v : val) := fun i => hd_error (claims c i O (vp ++ v :: vq)).

Lemma cl_same i : cl x i = cl x' i.
Proof. unfold cl, O. rewrite (ed_claims c pre post id t k vp vq x x' L); auto. rewrite Free. intros []. Qed.

Lemma place_emitted v : has_fields O (vp ++ v :: vq) ->
  emitted c O (vp ++ v :: vq) = emit_fields c (cl v) pre vp ++ emit_ty c t v :: emit_fields c (cl v) post vq.
Proof.
  intros H. unfold emitted. fold (cl v). unfold O at 1. rewrite emit_fields_app by auto. cbn [emit_fields].
  unfold cl at 2. rewrite (not_overwritten c O _ pre id t k v W T H); auto. exists post, vp, vq. auto.
Qed.

Lemma place_enc ws w us : length ws = f_len pre ->
  enc_fields (c_wire c) O (ws ++ w :: us) =
  enc_fields (c_wire c) pre ws ++ enc_ty (c_wire c) t w ++ enc_fields (c_wire c) post us.
Proof. intros E. unfold O. rewrite LawMore.enc_split by auto. reflexivity. Qed.

Lemma place out out' : has_fields O (vp ++ x :: vq) -> has_fields O (vp ++ x' :: vq) ->
  wmem (stream_cast c O (vp ++ x :: vq)) = (Ok tt, out) ->
  wmem (stream_cast c O (vp ++ x' :: vq)) = (Ok tt, out') ->
  exists hd tl, out = hd ++ enc_ty (c_wire c) t (emit_ty c t x) ++ tl /\
    out' = hd ++ enc_ty (c_wire c) t (emit_ty c t x') ++ tl.
Proof.
  intros H H' E E'. apply write_ok_iff in E; auto. apply write_ok_iff in E'; auto.
  destruct E as [_ ->], E' as [_ ->].
  rewrite !place_emitted by auto. rewrite !place_enc by (apply emit_fields_length; auto).
  rewrite !(emit_fields_ext c _ _ _ cl_same). eauto.
Qed.

Lemma edit bs rest out : reversible c O = true -> Forall byte_ok bs ->
  rmem (struct_cast c O) bs = (Ok (vp ++ x :: vq), rest) -> has_fields O (vp ++ x' :: vq) ->
  wmem (stream_cast c O (vp ++ x' :: vq)) = (Ok tt, out) ->
  exists hd tl, bs = hd ++ enc_ty (c_wire c) t x ++ tl ++ rest /\
    out = hd ++ enc_ty (c_wire c) t (emit_ty c t x') ++ tl /\ hd = enc_fields (c_wire c) pre vp.
Proof.
  intros R B E H' E'. destruct (read_sound c O bs _ rest W B E) as [V ->].
  pose proof (struct_has c O _ V) as H. apply write_ok_iff in E'; auto. destruct E' as [_ ->].
  assert (K : emitted c O (vp ++ x :: vq) = vp ++ x :: vq).
  { destruct (emit_back c) as (_ & He & _). unfold emitted.
    apply (He O [] [] (mk_env O (vp ++ x :: vq)) O O _ _ W T R V). apply kept_all; auto. }
  rewrite place_emitted in K by auto. rewrite place_emitted by auto.
  assert (Le : forall v, length (emit_fields c (cl v) pre vp) = f_len pre) by (intros; apply emit_fields_length; auto).
  rewrite !place_enc by auto. rewrite !(emit_fields_ext c _ _ _ cl_same) in K.
  apply cut_at in K; [|rewrite Le; auto]. destruct K as [K1 K2]. injection K2 as _ K2.
  rewrite K1, K2. exists (enc_fields (c_wire c) pre vp), (enc_fields (c_wire c) post vq).
  rewrite <- !app_assoc. auto.
Qed.
End Place.
