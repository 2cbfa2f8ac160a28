(** * Proofs about records read one by one *)
From Coq Require Import String Lia.
From Verif Require Import Safety ReadFacts ReadMore ReadFinal RExactFacts LawMore MoreDefs MoreSpec SeqFacts ProgFacts WExact WriteFinal WriteLoc ExactFacts Rewrite PropDefs PayloadFacts OneByOneSpec.
Import ListNotations.
Open Scope Z_scope.

Lemma valid_last c pre id t vp x : length vp = f_len pre -> wf (f_app pre (FCons id t CNone FNil)) = true ->
  (valid c (f_app pre (FCons id t CNone FNil)) (vp ++ [x]) <-> valid c pre vp /\ valid_ty c (mk_env pre vp) t x).
Proof.
  intros L W. pose proof (wf_app_l _ _ W) as Wp. rewrite (valid_around c pre FNil id t vp [] x L W).
  - cbn zeta. rewrite f_app_nil, app_nil_r. cbn [valid_fields]. unfold valid. tauto.
  - rewrite f_app_nil. exact Wp.
Qed.

Lemma repeat_kinds (gs : fields) (wss : list (list val)) :
  map fst (map (fun ws => (gs, ws)) wss) = repeat gs (length wss).
Proof. induction wss as [|w l IH]; cbn; [reflexivity|]. rewrite IH. reflexivity. Qed.

Lemma same_kinds (gs : fields) (wss : list (list val)) : map snd (map (fun ws => (gs, ws)) wss) = wss.
Proof. induction wss as [|w l IH]; cbn; [reflexivity|]. rewrite IH. reflexivity. Qed.

Lemma enc_each o gs wss : enc_msgs o (map (fun ws => (gs, ws)) wss) =
  flat_map (fun x => match x with VRec vs => enc_fields o gs vs | _ => [] end) (map VRec wss).
Proof. induction wss as [|w l IH]; cbn; [reflexivity|]. rewrite IH. reflexivity. Qed.

Lemma as_recs c gs xs : Forall (fun x => exists vs, x = VRec vs /\ valid_fields c (mk_env gs vs) gs vs) xs ->
  exists wss, xs = map VRec wss /\ Forall (valid c gs) wss.
Proof.
  induction 1 as [|x xs (vs & -> & V) F (wss & -> & W)]; [exists []; auto|].
  exists (vs :: wss). split; [reflexivity|]. constructor; auto.
Qed.

Lemma recs_as c gs wss : Forall (valid c gs) wss ->
  Forall (fun x => exists vs, x = VRec vs /\ valid_fields c (mk_env gs vs) gs vs) (map VRec wss).
Proof. induction 1; cbn; constructor; eauto. Qed.

Lemma count_valid c E t gs x : record_type t = Some gs ->
  (valid_ty c E t x <-> exists wss, x = VSeq (map VRec wss) /\ Forall (valid c gs) wss /\ count_is c E t (length wss)).
Proof.
  destruct t; try discriminate; intros [= ->]; cbn [valid_ty count_is]; split.
  - intros (xs & -> & Ln & F). destruct (as_recs _ _ _ F) as (wss & -> & V). rewrite map_length in Ln. eauto 6.
  - intros (wss & -> & F & Ln). exists (map VRec wss). rewrite map_length. auto using recs_as.
  - intros (xs & -> & F & Ln & Wi). destruct (as_recs _ _ _ F) as (wss & -> & V). rewrite map_length in *. eauto 8.
  - intros (wss & -> & F & Ln & Wi). exists (map VRec wss). rewrite map_length. auto using recs_as.
Qed.

Lemma enc_recs o t gs wss : record_type t = Some gs ->
  enc_ty o t (VSeq (map VRec wss)) = enc_msgs o (map (fun ws => (gs, ws)) wss).
Proof. intros R. rewrite enc_each. destruct t; try discriminate; injection R as ->; reflexivity. Qed.

Lemma firstn_exact {A} (a b : list A) n : length a = n -> firstn n (a ++ b) = a.
Proof. intros <-. rewrite firstn_app, Nat.sub_diag, firstn_O, app_nil_r. apply firstn_all. Qed.

Section Last.
Variables (c : cfg) (pre gs : fields) (id : ident) (t : fty).
Let O := f_app pre (FCons id t CNone FNil).
Hypothesis W : wf O = true.
Hypothesis R : record_type t = Some gs.

Lemma wf_recs : wf gs = true.
Proof.
  unfold O, wf in W. apply wf_fields_app in W. destruct W as [_ W2]. cbn [wf_fields] in W2.
  rewrite !andb_true_iff in W2. destruct W2 as [[_ W2] _]. unfold wf.
  destruct t; try discriminate; injection R as ->; cbn [wf_ty] in W2; rewrite ?andb_true_iff in W2; tauto.
Qed.

Lemma apart_one bs vs rest : Forall byte_ok bs -> rmem (struct_cast c O) bs = (Ok vs, rest) ->
  exists vp wss mid, vs = vp ++ [VSeq (map VRec wss)] /\ count_is c (mk_env pre vp) t (length wss) /\
    rmem (struct_cast c pre) bs = (Ok vp, mid) /\
    rmem (read_msgs c (repeat gs (length wss))) mid = (Ok wss, rest).
Proof.
  intros B H. apply read_ok_iff in H; auto. destruct H as [V E].
  pose proof (struct_has c _ _ V) as Hv. destruct (has_fields_app _ _ _ Hv) as (vp & tl & -> & L & _ & Ht).
  cbn [has_fields] in Ht. destruct tl as [|x [|y tl]]; try tauto.
  apply (valid_last c pre id t vp x L W) in V. destruct V as [Vp Vx].
  apply (count_valid _ _ _ gs) in Vx; auto. destruct Vx as (wss & -> & F & Cn).
  unfold O in E. rewrite LawMore.enc_split in E by auto. cbn [enc_fields] in E. rewrite app_nil_r in E.
  rewrite (enc_recs _ _ gs) in E by auto. rewrite <- app_assoc in E.
  exists vp, wss, (enc_msgs (c_wire c) (map (fun ws => (gs, ws)) wss) ++ rest).
  split; [reflexivity|]. split; [exact Cn|]. split.
  - apply read_ok_iff; auto. apply (wf_app_l _ _ W).
  - rewrite <- repeat_kinds. rewrite <- (same_kinds gs wss) at 3. apply read_sequence.
    apply Forall_map. eapply Forall_impl; [|exact F]. intros ws Vw. cbn. split; [apply wf_recs | exact Vw].
Qed.

Lemma joined bs vp wss mid rest : Forall byte_ok bs -> count_is c (mk_env pre vp) t (length wss) ->
  rmem (struct_cast c pre) bs = (Ok vp, mid) ->
  rmem (read_msgs c (repeat gs (length wss))) mid = (Ok wss, rest) ->
  rmem (struct_cast c O) bs = (Ok (vp ++ [VSeq (map VRec wss)]), rest).
Proof.
  intros B Cn H1 H2. pose proof (rmem_bytes _ _ _ _ B H1) as Bm.
  apply read_ok_iff in H1; auto; [|apply (wf_app_l _ _ W)]. destruct H1 as [Vp E].
  apply read_sequence_sound in H2; auto.
  2:{ apply Forall_forall. intros x X. apply repeat_spec in X. subst x. apply wf_recs. }
  destruct H2 as (_ & F & E2).
  assert (K : combine (repeat gs (length wss)) wss = map (fun ws => (gs, ws)) wss).
  { clear. induction wss as [|w l IH]; cbn; [reflexivity|]. rewrite IH. reflexivity. }
  rewrite K in F, E2. apply Forall_map in F. cbn in F.
  pose proof (valid_fields_length _ _ _ _ Vp) as L.
  apply read_ok_iff; auto. split.
  - apply valid_last; auto. split; [exact Vp|]. apply (count_valid _ _ _ gs); eauto.
  - unfold O. rewrite LawMore.enc_split by auto. cbn [enc_fields]. rewrite app_nil_r, (enc_recs _ _ gs) by auto.
    rewrite <- app_assoc, <- E2. exact E.
Qed.

Lemma ok_last F V vp x : forall gs', length vp = f_len gs' ->
  ok_fields c F V (f_app gs' (FCons id t CNone FNil)) (vp ++ [x]) -> ok_ty c (mk_env F V) t x.
Proof.
  revert vp. intros vp gs'. revert vp. induction gs' as [|i u k gs' IH]; intros [|v vp] L H; try discriminate.
  - cbn [f_app app ok_fields] in H. destruct t; try discriminate; tauto.
  - cbn [f_app app ok_fields] in H. apply (IH vp); [cbn in L; lia | tauto].
Qed.

Lemma written_one vp wss out : typed O = true -> length vp = f_len pre ->
  has_fields O (vp ++ [VSeq (map VRec wss)]) ->
  wmem (stream_cast c O (vp ++ [VSeq (map VRec wss)])) = (Ok tt, out) ->
  exists tl, out = enc_fields (c_wire c) pre (firstn (f_len pre) (emitted c O (vp ++ [VSeq (map VRec wss)]))) ++ tl /\
    wmem (write_msgs c (map (fun ws => (gs, ws)) wss)) = (Ok tt, tl).
Proof.
  intros T L H E. apply write_ok_iff in E; auto. destruct E as [Ok_ ->].
  apply (ok_last _ _ vp _ pre L) in Ok_.
  apply has_fields_app' in H; auto. destruct H as [_ H]. cbn [has_fields] in H. destruct H as [H _].
  unfold emitted. match goal with |- context [emit_fields c ?f O _] => set (cl := f) end. clearbody cl.
  unfold O. rewrite emit_fields_app by auto.
  rewrite LawMore.enc_split by (apply emit_fields_length; auto). eexists. split.
  { rewrite (firstn_exact (emit_fields c cl pre vp)) by (apply emit_fields_length; auto). reflexivity. }
  cbn [emit_fields enc_fields]. rewrite app_nil_r.
  assert (Tg : typed gs = true).
  { unfold O, typed in T. rewrite typed_fields_app, andb_true_iff in T. destruct T as [_ T].
    cbn [typed_fields] in T. rewrite !andb_true_iff in T. destruct T as [[T _] _]. unfold typed.
    destruct t; try discriminate; injection R as ->; cbn [typed_ty] in T; rewrite ?andb_true_iff in T; tauto. }
  assert (S : Forall (fun ws => has_fields gs ws /\ writable c gs ws) wss).
  { assert (A1 : Forall (fun x => match x with VRec vs => has_fields gs vs | _ => False end) (map VRec wss)).
    { destruct t; try discriminate; injection R as ->; cbn [has_ty] in H; tauto. }
    assert (A2 : Forall (fun x => exists ws, x = VRec ws /\ ok_fields c gs ws gs ws) (map VRec wss)).
    { destruct t; try discriminate; injection R as ->; cbn [ok_ty] in Ok_.
      - destruct Ok_ as (xs & [= <-] & A). exact A.
      - destruct Ok_ as (xs & [= <-] & _ & A). exact A. }
    rewrite Forall_forall in A1, A2. apply Forall_forall. intros ws I. apply (in_map VRec) in I.
    split; [apply (A1 _ I)|]. destruct (A2 _ I) as (ws' & [= <-] & A). exact A. }
  assert (M : forall cl', slot cl' CNone t (emit_ty c t (VSeq (map VRec wss))) =
     VSeq (map VRec (map (emitted c gs) wss))).
  { intros cl'. rewrite map_map. destruct t; try discriminate; injection R as ->; cbn; rewrite map_map; reflexivity. }
  rewrite M, (enc_recs _ _ gs) by auto. pose proof wf_recs as Wg. clear - S Tg Wg.
  induction S as [|ws wss [A1 A2] _ IH]; [reflexivity|]. cbn [map write_msgs enc_msgs].
  apply wmem_bind_ok. exists tt. eexists. eexists. split; [|split; [exact IH | reflexivity]].
  apply write_ok_iff; auto.
Qed.
End Last.
