(** * Kinds of fields that can be replaced by simpler ones *)
From Coq Require Import ZifyBool ZifyNat.
From Verif Require Import Read Write WSpec Typing PropDefs MoreSpec Laws DegenSpec BytesFacts ProgFacts ReadFacts ReadMore ReadLemmas Safety.
From Verif Require Import GroupSpec WriteFacts WriteMain WriteLoc WriteRel AppendFacts EquivFacts LawMore GroupFacts.

Definition rel {S : istream} {E A B} (q : event -> bool) (g : A -> B)
  (r : outcome E B * i_st S * list event) (r' : outcome E A * i_st S * list event) : Prop :=
  fst (fst r) = on_ok g (fst (fst r')) /\ snd (fst r) = snd (fst r') /\
  filter q (snd r) = filter q (snd r').

Lemma at_pos_app f v us : forall vs, at_pos (length vs) f (vs ++ v :: us) = vs ++ f v :: us.
Proof. induction vs; simpl; congruence. Qed.

Lemma wf_less post : forall s id, wf_fields (id :: s) post = true -> ~ In id (refs_fields post) ->
  ~ In id (f_ids post) -> wf_fields s post = true.
Proof.
  intros s id H Hr Hi. 
  assert (G : forall post s1 s2, wf_fields s1 post = true -> incl s2 s1 ->
    (forall i, In i s1 -> In i (refs_fields post) -> In i s2) -> wf_fields s2 post = true).
  { clear. induction post as [|i t k post IH]; intros s1 s2 H Hs Hr; auto.
    cbn [wf_fields refs_fields] in *.
    apply andb_prop in H as [H A3]. apply andb_prop in H as [A1 A2].
    rewrite (IH (i :: s1)); auto.
    - rewrite (proj1 wf_refs t s1 s2 A2).
      + rewrite andb_true_r. destruct (memb i s2) eqn:E; auto.
        apply memb_In, Hs, memb_In in E. rewrite E in A1. discriminate.
      + intros j Hj. apply Hr; [eapply (proj1 refs_seen); eauto|]. apply in_or_app; auto.
    - intros j [->|H]; simpl; auto.
    - intros j [->|H] H'; simpl; auto. right. apply Hr; auto. apply in_or_app; auto. }
  eapply G; [exact H| |].
  - intros i Hin. right. auto.
  - intros i [->|Hin] H'; auto. contradiction.
Qed.

Section Swap.
Variables (c : cfg) (pre post : fields) (id : ident) (t t' : fty) (k k' : constr) (f : val -> val).
Variables (S : istream) (alloc : Z -> bool) (q : event -> bool).
Notation F := (f_app pre (FCons id t k post)).
Notation G := (f_app pre (FCons id t' k' post)).
Hypothesis (HF : wf F = true) (HG : wf G = true) (Hr : ~ In id (refs_fields post)).
Hypothesis Hfield : forall e s, (forall i, In i (f_ids pre) -> exists w, lookup e i = Some w) ->
  wf_ty (rev (f_ids pre)) t = true -> wf_ty (rev (f_ids pre)) t' = true ->
  rel q f (rrun S alloc (rbind (read_ty c e t) (rcheck k)) s)
          (rrun S alloc (rbind (read_ty c e t') (rcheck k')) s).

Lemma sw_parts (u : fty) (j : constr) : wf (f_app pre (FCons id u j post)) = true ->
  wf pre = true /\ wf_ty (rev (f_ids pre)) u = true /\ wf_fields (rev (f_ids pre)) post = true /\
  ~ In id (f_ids pre) /\ ~ In id (f_ids post) /\ (forall i, In i (f_ids pre) -> ~ In i (f_ids post)).
Proof.
  clear - Hr. intros H.
  pose proof (proj1 (wf_fields_ids _ _ H)) as N. rewrite f_ids_app in N. cbn [f_ids] in N.
  pose proof (NoDup_remove_2 _ _ _ N) as N2. rewrite in_app_iff in N2.
  destruct (nodup_apart _ _ N) as [_ D].
  split; [eapply wf_app_l; eauto|].
  apply wf_fields_app in H as [_ H]. cbn [wf_fields] in H. rewrite app_nil_r in H.
  apply andb_prop in H as [H W]. apply andb_prop in H as [_ W'].
  split; auto. split; [eapply wf_less; eauto|]. split; [tauto|]. split; [tauto|].
  intros i Hi Hp. apply (D i Hi). right; auto.
Qed.

Lemma swap_read s :
  rel q (at_pos (f_len pre) f) (rrun S alloc (struct_cast c F) s) (rrun S alloc (struct_cast c G) s).
Proof.
  destruct (sw_parts t k HF) as (W1 & W2 & W3 & I1 & I2 & I3).
  destruct (sw_parts t' k' HG) as (_ & W4 & _).
  rewrite (req_rrun S alloc _ _ (struct_cast_app c pre _ HG)).
  rewrite (req_rrun S alloc _ _ (struct_cast_app c pre _ HF)). rewrite !rrun_bind.
  destruct (rrun S alloc (struct_cast c pre) s) as [[[vs|[r i]| | |] s1] ev1] eqn:E1;
    try (unfold rel; simpl; auto; fail).
  pose proof (rrun_read_fields_length _ _ _ _ _ _ _ _ _ E1) as L1.
  set (eG := mk_env G (default_fields G)). set (eF := mk_env F (default_fields F)).
  assert (DG : dom G eG) by (apply dom_mk_env, default_fields_length).
  assert (DF : dom F eF) by (apply dom_mk_env, default_fields_length).
  assert (LK : forall i, In i (f_ids pre) ->
    lookup (updates eF pre vs) i = lookup (mk_env pre vs) i /\
    lookup (updates eG pre vs) i = lookup (mk_env pre vs) i).
  { intros i Hi. split; apply lookup_updates; auto; try apply wf_fields_ids with (seen := []), W1.
    all: intros j Hj; first [apply DG | apply DF]; rewrite f_ids_app; auto using in_or_app. }
  assert (DM : forall e, (forall i, In i (f_ids pre) -> lookup e i = lookup (mk_env pre vs) i) ->
    forall i, In i (f_ids pre) -> exists w, lookup e i = Some w).
  { intros e He i Hi. rewrite He by auto. apply dom_mk_env; auto. }
  rewrite !rrun_bind. cbn [read_fields].
  rewrite !rrun_bind, !rrun_maperr.
  assert (EQ : read_ty c (updates eG pre vs) t' = read_ty c (updates eF pre vs) t').
  { apply (read_ty_agree c (rev (f_ids pre))); auto.
    intros i Hi. apply memb_In, in_rev in Hi. destruct (LK i Hi). congruence. }
  rewrite EQ.
  specialize (Hfield (updates eF pre vs) s1).
  destruct Hfield as (R1 & R2 & R3); auto. { apply DM. intros i Hi. apply LK; auto. }
  destruct (rrun S alloc (rbind (read_ty c (updates eF pre vs) t) (rcheck k)) s1) as [[o s2] ev2].
  destruct (rrun S alloc (rbind (read_ty c (updates eF pre vs) t') (rcheck k')) s1) as [[o' s2'] ev2'].
  cbn [fst snd] in *. subst o s2.
  destruct o' as [v|r| | |]; cbn [on_ok];
    try (unfold rel; cbn [fst snd on_ok]; rewrite !filter_app, R3; auto; fail).
  rewrite !rrun_bind.
  assert (EQ2 : req (read_fields c (update (updates eF pre vs) id (f v)) post)
                    (read_fields c (update (updates eG pre vs) id v) post)).
  { apply read_fields_agree with (seen := rev (f_ids pre)); auto.
    - intros i Hi. apply memb_In, in_rev in Hi.
      rewrite !lookup_update_other by (intros ->; tauto). destruct (LK i Hi). congruence.
    - intros i Hi. rewrite lookup_update_other by (intros ->; tauto).
      rewrite lookup_updates_out by (intros H; apply (I3 i); auto).
      apply DF. rewrite f_ids_app. apply in_or_app. simpl. auto.
    - intros i Hi. rewrite lookup_update_other by (intros ->; tauto).
      rewrite lookup_updates_out by (intros H; apply (I3 i); auto).
      apply DG. rewrite f_ids_app. apply in_or_app. simpl. auto. }
  rewrite (req_rrun S alloc _ _ EQ2).
  destruct (rrun S alloc (read_fields c (update (updates eG pre vs) id v) post) s2') as [[[us|[r i]| | |] s3] ev3];
    unfold rel; cbn; rewrite ?app_nil_r, !filter_app, R3; auto.
  rewrite <- L1, at_pos_app. auto.
Qed.
End Swap.

Lemma rel_all {S : istream} {E A B} (g : A -> B) (r : outcome E B * i_st S * list event) r' :
  rel (fun _ => true) g r r' -> r = (on_ok g (fst (fst r')), snd (fst r'), snd r').
Proof.
  destruct r as [[o s] ev]. unfold rel. cbn [fst snd]. intros (-> & -> & H).
  assert (T : forall l : list event, filter (fun _ => true) l = l) by (induction l; simpl; congruence).
  rewrite !T in H. congruence.
Qed.

Lemma lookups_ids e pre ids : (forall i, In i (f_ids pre) -> exists w, lookup e i = Some w) ->
  forallb (fun i => memb i (rev (f_ids pre))) ids = true -> exists vs, lookups e ids = Some vs.
Proof.
  intros H. induction ids as [|i ids IH]; simpl; intros Hi; [eauto|].
  apply andb_prop in Hi as [H1 H2]. destruct (IH H2) as [vs ->].
  apply memb_In, in_rev in H1. destruct (H i H1) as [w ->]. eauto.
Qed.

Lemma rel_wrap S alloc q (f : val -> val) (p : rprog reason val) s :
  rel q f (rrun S alloc (rbind (rbind p (fun v => RRet (f v))) (rcheck CNone)) s) (rrun S alloc p s).
Proof.
  rewrite rrun_check_none, rrun_bind.
  destruct (rrun S alloc p s) as [[[v|r| | |] s1] ev1]; unfold rel; cbn; rewrite ?app_nil_r; auto.
Qed.

Lemma ladder_deduce e f r ids cases vs : lookups e ids = Some vs ->
  deduce_type e (GLadder (as_ladder f r ids cases)) = deduce_type e (GComp f r ids cases).
Proof.
  intros H. cbn [deduce_type]. rewrite H. unfold eval_switch.
  induction cases as [|m cases IH]; cbn; auto. rewrite H. destruct (cxx_eq _ _ _ _); auto.
  unfold as_ladder in IH. rewrite IH. auto.
Qed.

Lemma trivial_read c pre id t k f t' k' post S alloc s :
  trivial c t k f t' k' ->
  wf (f_app pre (FCons id t k post)) = true -> wf (f_app pre (FCons id t' k' post)) = true ->
  ~ In id (refs_fields post) ->
  rrun S alloc (struct_cast c (f_app pre (FCons id t k post))) s =
  let '(o, s', ev) := rrun S alloc (struct_cast c (f_app pre (FCons id t' k' post))) s in
  (on_ok (at_pos (f_len pre) f) o, s', ev).
Proof.
  intros T HF HG Hr.
  assert (R : rel (fun _ => true) (at_pos (f_len pre) f)
    (rrun S alloc (struct_cast c (f_app pre (FCons id t k post))) s)
    (rrun S alloc (struct_cast c (f_app pre (FCons id t' k' post))) s)).
  { apply swap_read; auto. clear s. intros e s De W W'.
    destruct T; cbn [read_ty wf_ty] in *.
    - apply andb_prop in W as [W _]. destruct (lookups_ids _ _ _ De W) as [vs ->].
      rewrite H, (rrun_check_none S alloc (read_ty c e b)). apply rel_wrap.
    - cbn [deduce_type eval_ladder guide_wf forallb] in *.
      apply andb_prop in W as [W _]. apply andb_prop in W as [W _].
      destruct (lookups_ids e pre ids De W) as [vs ->]. rewrite H. cbn [read_alts]. apply rel_wrap.
    - cbn [deduce_type guide_wf forallb] in *.
      apply andb_prop in W as [W _]. 
      destruct (lookups_ids _ _ _ De W) as [vs ->]. unfold eval_switch. cbn [map fst snd first_true].
      rewrite H. cbn [read_alts]. apply rel_wrap.
    - cbn [guide_wf] in W. apply andb_prop in W as [W _].
      destruct (lookups_ids _ _ _ De W) as [vs L]. rewrite (ladder_deduce _ _ _ _ _ _ L).
      destruct (rrun _ _ _ _) as [[[v|r0| | |] s1] ev1]; unfold rel; cbn; auto.
    - rewrite !rrun_check_none. cbn [rrep]. rewrite !rrun_bind.
      destruct (rrun S alloc (rmaperr fst (read_fields c (mk_env gs (default_fields gs)) gs)) s)
        as [[[v|r| | |] s1] ev1]; unfold rel; cbn; rewrite ?app_nil_r; auto. }
  apply rel_all in R. rewrite R.
  destruct (rrun S alloc (struct_cast c (f_app pre (FCons id t' k' post))) s) as [[o s'] ev]. auto.
Qed.

Lemma overlay_full n bs : length bs = n -> overlay n bs = bs.
Proof. intros <-. unfold overlay. rewrite Nat.sub_diag. simpl. apply app_nil_r. Qed.

Lemma constant_read c n pre id t t' z post S alloc s :
  constant_length c n t t' z ->
  wf (f_app pre (FCons id t CNone post)) = true -> wf (f_app pre (FCons id t' CNone post)) = true ->
  ~ In id (refs_fields post) -> delivers S -> alloc z = true -> c_cx c = false ->
  exists o s' ev ev',
    rrun S alloc (struct_cast c (f_app pre (FCons id t CNone post))) s = (o, s', ev) /\
    rrun S alloc (struct_cast c (f_app pre (FCons id t' CNone post))) s = (o, s', ev') /\
    the_reads ev = the_reads ev'.
Proof.
  intros T HF HG Hr Hd Ha Hcx.
  assert (R : rel (fun e => match e with EvRead _ _ => true | EvAlloc _ => false end)
                  (at_pos (f_len pre) (fun v => v))
    (rrun S alloc (struct_cast c (f_app pre (FCons id t CNone post))) s)
    (rrun S alloc (struct_cast c (f_app pre (FCons id t' CNone post))) s)).
  { apply swap_read; auto. clear s. intros e s De W W'. rewrite !rrun_check_none.
    destruct T; cbn [read_ty wf_ty len_wf] in *.
    - apply andb_prop in W as [W0 W]. destruct (lookups_ids _ _ _ De W) as [vs Hl].
      unfold deduce_len. rewrite Hl, H. unfold to_size. unfold pow256. rewrite Z.mod_small by lia.
      pose proof (csize_pos _ W0).
      unfold read_var. rewrite len_allowed_of by lia. unfold within, ceiling_of in *.
      destruct (Z.leb_spec (Z.of_nat n * Z.of_nat (csize elt))
        (match b with Some m => m | None => c_dmax c end mod 256 ^ Z.of_nat (c_szw c))); [|lia].
      unfold read_fixed. cbn [csize]. rewrite Nat.ltb_irrefl. cbn [rrun]. rewrite Ha.
      unfold read_raw. rewrite Hcx. cbn [rbind rrun].
      assert (M : match b with Some m => m | None => c_dmax c end mod 256 ^ Z.of_nat (c_szw c) < 256 ^ Z.of_nat (c_szw c))
        by (apply Z.mod_pos_bound; lia).
      unfold to_size, pow256. rewrite Z.mod_small by lia.
      rewrite Nat2Z.inj_mul.
      destruct (i_read S s (Z.of_nat n * Z.of_nat (csize elt))) as [[bs|] s1] eqn:Ei.
      + assert (L : length bs = (n * csize elt)%nat).
        { apply Hd in Ei. destruct Ei as [-> _]. lia. }
        rewrite overlay_full by auto. cbn [load]. rewrite Nat2Z.id.
        destruct (sequence _); unfold rel; cbn; auto.
      + unfold rel; cbn; auto.
    - apply andb_prop in W as [W0 W]. apply andb_prop in W0 as [_ W0].
      destruct (lookups_ids _ _ _ De W) as [vs Hl].
      unfold deduce_len. rewrite Hl, H. unfold to_size. unfold pow256. rewrite Z.mod_small by lia.
      rewrite len_allowed_of by lia. unfold within, ceiling_of in *.
      destruct (Z.leb_spec (Z.of_nat n * sz)
        (match b with Some m => m | None => c_dmax c end mod 256 ^ Z.of_nat (c_szw c))); [|lia].
      cbn [rrun]. rewrite Ha, Nat2Z.id.
      destruct (rrun S alloc _ s) as [[o s1] ev1]. unfold rel. cbn. destruct o; auto. }
  unfold rel, the_reads in *.
  destruct (rrun S alloc (struct_cast c (f_app pre (FCons id t CNone post))) s) as [[o s'] ev].
  destruct (rrun S alloc (struct_cast c (f_app pre (FCons id t' CNone post))) s) as [[o1 s1] ev1].
  cbn [fst snd] in R. destruct R as (R1 & -> & R3). exists o, s1, ev, ev1. repeat split; auto.
  subst o. assert (I : forall m l, at_pos m (fun v => v) l = l)
    by (intros m l; revert m; induction l; intros [|m]; simpl; congruence).
  destruct o1; cbn [on_ok]; auto. rewrite I. auto.
Qed.

(** ** A field that is never there *)

Lemma wf_glue a b : forall seen, wf_fields seen a = true -> wf_fields (rev (f_ids a) ++ seen) b = true ->
  wf_fields seen (f_app a b) = true.
Proof.
  induction a as [|i t k a IH]; intros seen H1 H2; auto. cbn [wf_fields f_app f_ids rev] in *.
  apply andb_prop in H1 as [H0 H1]. rewrite H0. apply IH; auto. rewrite <- app_assoc in H2. auto.
Qed.

Lemma absent_read c pre id b p ids post S alloc s :
  (forall vs, p vs = false) ->
  wf (f_app pre (FCons id (FMaybe b p ids) CNone post)) = true -> ~ In id (refs_fields post) ->
  rrun S alloc (struct_cast c (f_app pre (FCons id (FMaybe b p ids) CNone post))) s =
  let '(o, s', ev) := rrun S alloc (struct_cast c (f_app pre post)) s in
  (on_ok (put_in (f_len pre) VNone) o, s', ev).
Proof.
  intros Hp HF Hr.
  destruct (sw_parts pre post id Hr _ _ HF) as (W1 & W2 & W3 & I1 & I2 & I3).
  set (t := FMaybe b p ids) in *.
  set (F := f_app pre (FCons id t CNone post)) in *. set (G := f_app pre post) in *.
  assert (HG : wf G = true).
  { unfold wf, G. apply wf_glue; auto. rewrite app_nil_r. auto. }
  unfold F, G. rewrite (req_rrun S alloc _ _ (struct_cast_app c pre _ HG)).
  rewrite (req_rrun S alloc _ _ (struct_cast_app c pre _ HF)). rewrite !rrun_bind.
  fold F G.
  destruct (rrun S alloc (struct_cast c pre) s) as [[[vs|[r i]| | |] s1] ev1] eqn:E1;
    try (simpl; auto; fail).
  pose proof (rrun_read_fields_length _ _ _ _ _ _ _ _ _ E1) as L1.
  set (eG := mk_env G (default_fields G)). set (eF := mk_env F (default_fields F)).
  assert (DG : dom G eG) by (apply dom_mk_env, default_fields_length).
  assert (DF : dom F eF) by (apply dom_mk_env, default_fields_length).
  assert (LK : forall i, In i (f_ids pre) ->
    lookup (updates eF pre vs) i = lookup (mk_env pre vs) i /\
    lookup (updates eG pre vs) i = lookup (mk_env pre vs) i).
  { intros i Hi. split; apply lookup_updates; auto; try apply wf_fields_ids with (seen := []), W1.
    all: intros j Hj; first [apply DG | apply DF]; unfold F, G; rewrite f_ids_app; auto using in_or_app. }
  rewrite !rrun_bind. cbn [read_fields].
  rewrite !rrun_bind, !rrun_maperr, rrun_check_none. unfold t at 1. cbn [read_ty].
  destruct (lookups_ids (updates eF pre vs) pre ids) as [ws ->].
  { intros i Hi. rewrite (proj1 (LK i Hi)). apply dom_mk_env; auto. }
  { cbn [wf_ty] in W2. apply andb_prop in W2. apply W2. }
  rewrite Hp. cbn [rrun app]. rewrite !rrun_bind.
  assert (EQ2 : req (read_fields c (update (updates eF pre vs) id VNone) post)
                    (read_fields c (updates eG pre vs) post)).
  { apply read_fields_agree with (seen := rev (f_ids pre)); auto.
    - intros i Hi. apply memb_In, in_rev in Hi.
      rewrite !lookup_update_other by (intros ->; tauto). destruct (LK i Hi). congruence.
    - intros i Hi. rewrite lookup_update_other by (intros ->; tauto).
      rewrite lookup_updates_out by (intros H; apply (I3 i); auto).
      apply DF. unfold F. rewrite f_ids_app. apply in_or_app. simpl. auto.
    - intros i Hi.
      rewrite lookup_updates_out by (intros H; apply (I3 i); auto).
      apply DG. unfold G. rewrite f_ids_app. apply in_or_app. simpl. auto. }
  rewrite (req_rrun S alloc _ _ EQ2).
  destruct (rrun S alloc (read_fields c (updates eG pre vs) post) s1) as [[[us|[r i]| | |] s3] ev3];
    cbn; rewrite ?app_nil_r; auto.
  unfold put_in. rewrite <- L1, firstn_app, skipn_app, Nat.sub_diag, firstn_all, skipn_all. simpl.
  rewrite app_nil_r. auto.
Qed.

(** ** Writing *)

Lemma wbind_tt {E} (p : wprog E unit) : wbind p (fun _ => WRet tt) = p.
Proof. induction p; simpl; auto; try congruence. destruct a; auto. Qed.

Section WSwap.
Variables (c : cfg) (pre post : fields) (id : ident) (t t' : fty) (k k' : constr) (f : val -> val).
Variables (vs us : list val) (v : val).
Notation F := (f_app pre (FCons id t k post)).
Notation G := (f_app pre (FCons id t' k' post)).
Notation VF := (vs ++ f v :: us).
Notation VG := (vs ++ v :: us).
Hypothesis (HF : wf F = true) (HG : wf G = true) (Hr : ~ In id (refs_fields post)).
Hypothesis (Hv : has_fields pre vs) (Hu : has_fields post us).
Hypothesis (Ht : has_ty t (f v)) (Ht' : has_ty t' v).
Hypothesis (Hs : all_sources (FCons id t k FNil) = []) (Hs' : all_sources (FCons id t' k' FNil) = []).

Let L1 : length vs = f_len pre := has_fields_length _ _ Hv.
Let L3 : length us = f_len post := has_fields_length _ _ Hu.

Lemma sw_env i : i <> id -> lookup (mk_env F VF) i = lookup (mk_env G VG) i.
Proof.
  intros Hi. rewrite !lookup_split by auto. destruct (memb i (f_ids pre)); auto.
  cbn [mk_env lookup]. destruct (String.eqb_spec id i); auto. congruence.
Qed.

Lemma sw_names : ~ In id (f_ids pre) /\ ~ In id (f_ids post) /\
  wf_fields [] pre = true /\ wf_fields (rev (f_ids pre)) post = true /\
  wf_ty (rev (f_ids pre)) t = true /\ wf_ty (rev (f_ids pre)) t' = true.
Proof.
  destruct (sw_parts pre post id Hr _ _ HF) as (W1 & W2 & W3 & I1 & I2 & I3).
  destruct (sw_parts pre post id Hr _ _ HG) as (_ & W4 & _). auto 10.
Qed.

Lemma sw_one u j i : all_sources (FCons id u j FNil) = [] -> ~ In i (all_sources (FCons id u j FNil)).
Proof. intros ->. simpl. auto. Qed.

Lemma sw_split u j : f_app pre (FCons id u j post) = f_app pre (f_app (FCons id u j FNil) post).
Proof. auto. Qed.

Lemma sw_derived i : is_derived F i = is_derived G i.
Proof.
  rewrite (sw_split t k), (sw_split t' k'), !derived_split.
  rewrite (derived_silent (FCons id t k FNil)), (derived_silent (FCons id t' k' FNil)); auto using sw_one.
Qed.

Lemma sw_value i u n : derive_value c F VF i u n = derive_value c G VG i u n.
Proof.
  unfold derive_value. destruct u; auto.
  rewrite (sw_split t k), (sw_split t' k').
  change (vs ++ f v :: us) with (vs ++ [f v] ++ us). change (vs ++ v :: us) with (vs ++ [v] ++ us).
  rewrite !fold_split by auto. destruct (derive_fold c i pre vs _) as [d|]; auto.
  rewrite !fold_split by auto.
  rewrite (fold_silent c i (FCons id t k FNil)), (fold_silent c i (FCons id t' k' FNil)); auto using sw_one.
Qed.

Lemma sw_cond i : has_cond_obligation F i = has_cond_obligation G i.
Proof.
  rewrite (sw_split t k), (sw_split t' k'), !cond_split.
  rewrite (cond_silent (FCons id t k FNil)), (cond_silent (FCons id t' k' FNil)); auto using sw_one.
Qed.

Lemma sw_verify i w : verify_cond (mk_env F VF) i w F VF = verify_cond (mk_env G VG) i w G VG.
Proof.
  destruct sw_names as (I1 & I2 & W1 & W3 & _).
  set (e := mk_env F VF). set (e' := mk_env G VG).
  rewrite (sw_split t k), (sw_split t' k').
  change (vs ++ f v :: us) with (vs ++ [f v] ++ us). change (vs ++ v :: us) with (vs ++ [v] ++ us).
  rewrite !verify_split by auto.
  rewrite (verify_silent e i w (FCons id t k FNil)) by (auto using sw_one; simpl; auto).
  rewrite (verify_silent e' i w (FCons id t' k' FNil)) by (auto using sw_one; simpl; auto).
  rewrite (verify_env e e' i w pre [] vs), (verify_env e e' i w post (rev (f_ids pre)) us); auto.
  - intros j Hj. apply sw_env. intros ->. rewrite <- in_rev in Hj. tauto.
  - intros j Hj. apply sw_env. intros ->. simpl in Hj. tauto.
Qed.

Lemma sw_field hs seen ws : wf_fields seen hs = true -> ~ In id seen -> ~ In id (f_ids hs) ->
  write_fields c F VF hs ws = write_fields c G VG hs ws.
Proof.
  intros H H1 H2.
  apply (cx_fields c F G VF VG (fun i => i <> id) (fun i => True)) with (seen := seen);
    auto using sw_env, sw_derived, sw_value, sw_cond, sw_verify.
  intros i [Hi|Hi] ->; auto.
Qed.

Lemma sw_type u mem j w : wf_ty (rev (f_ids pre)) u = true ->
  write_ty c F VF id mem j u w = write_ty c G VG id mem j u w.
Proof.
  intros H. destruct sw_names as (I1 & _).
  apply (proj1 (cx_write c F G VF VG (fun i => i <> id) (fun i => True)
    sw_env (fun i _ => sw_derived i) (fun i u n _ => sw_value i u n) (fun i _ => sw_cond i)
    (fun i w _ => sw_verify i w)) u (rev (f_ids pre))); auto.
  intros i Hi ->. rewrite <- in_rev in Hi. auto.
Qed.

Lemma sw_free : is_derived G id = false.
Proof.
  destruct sw_names as (I1 & I2 & W1 & _).
  rewrite (sw_split t' k'), !derived_split.
  rewrite (derived_silent (FCons id t' k' FNil)) by auto using sw_one.
  rewrite !derived_silent; auto.
  - intros H. apply Hr. apply all_sources_refs; auto.
  - intros H. destruct (sources_seen pre [] id W1 H) as [[]|]; auto.
Qed.

Lemma swap_write :
  wbind (if is_derived G id || is_frozen t k then WRet tt else wcheck k (f v))
        (fun _ => write_ty c F VF id true k t (f v)) =
  wbind (if is_derived G id || is_frozen t' k' then WRet tt else wcheck k' v)
        (fun _ => write_ty c G VG id true k' t' v) ->
  stream_cast c F VF = stream_cast c G VG.
Proof.
  intros H. destruct sw_names as (I1 & I2 & W1 & W3 & _).
  unfold stream_cast. rewrite !write_fields_app by auto.
  apply wbind_ext2; [apply (sw_field pre []); auto|]. intros _. cbn [write_fields].
  rewrite sw_derived. apply wbind_ext2; [rewrite H; auto|]. intros _.
  apply (sw_field post (rev (f_ids pre))); auto. rewrite <- in_rev. auto.
Qed.
End WSwap.


Lemma mem_free c F V id j u w : (forall u0 m, u = FFixed u0 m -> pinned u0 j = None) ->
  write_ty c F V id true j u w = write_ty c F V id false j u w.
Proof.
  intros H. destruct u; auto. cbn [write_ty]. unfold write_fixed, is_frozen.
  rewrite frozen_pinned, (H _ _ eq_refl). auto.
Qed.

Lemma free_frozen u j : (forall u0 m, u = FFixed u0 m -> pinned u0 j = None) -> is_frozen u j = false.
Proof.
  intros H. unfold is_frozen. destruct u; auto. rewrite frozen_pinned, (H _ _ eq_refl). auto.
Qed.

Lemma not_pinned u : pinned u CNone = None.
Proof. destruct u; auto. Qed.

Lemma has_at pre id u j post ws : has_fields (f_app pre (FCons id u j post)) ws ->
  exists vs v us, ws = vs ++ v :: us /\ has_fields pre vs /\ has_ty u v /\ has_fields post us.
Proof.
  intros H. apply has_cut in H as (vs & [|v us] & -> & H1 & H2); [destruct H2|].
  cbn [has_fields] in H2. exists vs, v, us. tauto.
Qed.

Lemma lookups_written pre id u j post vs v us ids : has_fields pre vs ->
  all_in ids (rev (f_ids pre)) = true ->
  exists xs, lookups (mk_env (f_app pre (FCons id u j post)) (vs ++ v :: us)) ids = Some xs.
Proof.
  intros Hv. apply (lookups_ids _ pre). intros i Hi.
  pose proof (has_fields_length _ _ Hv) as L. rewrite lookup_split by auto.
  rewrite (proj2 (memb_In i (f_ids pre)) Hi). apply dom_mk_env; auto.
Qed.

Lemma trivial_write c pre id t k f t' k' post S s ws :
  trivial c t k f t' k' ->
  wf (f_app pre (FCons id t k post)) = true -> wf (f_app pre (FCons id t' k' post)) = true ->
  ~ In id (refs_fields post) ->
  all_sources (FCons id t k FNil) = [] -> all_sources (FCons id t' k' FNil) = [] ->
  (forall u m, t' = FFixed u m -> pinned u k' = None) ->
  has_fields (f_app pre (FCons id t' k' post)) ws ->
  wrun S (stream_cast c (f_app pre (FCons id t k post)) (at_pos (f_len pre) f ws)) s =
  wrun S (stream_cast c (f_app pre (FCons id t' k' post)) ws) s.
Proof.
  intros T HF HG Hr Hs Hs' Hp H. f_equal.
  apply has_at in H as (vs & v & us & -> & Hv & Ht' & Hu).
  rewrite <- (has_fields_length _ _ Hv), at_pos_app.
  assert (Ht : has_ty t (f v)).
  { destruct T; cbn [has_ty has_alt]; auto. }
  apply swap_write; auto.
  assert (FR : is_frozen t k = false) by (destruct T; auto).
  rewrite FR, (free_frozen t' k' Hp).
  rewrite (sw_free pre post id t t' k k' HF HG Hr Hs'). cbn [orb].
  assert (WT := sw_type c pre post id t t' k k' f vs us v HF HG Hr Hv Ht Ht' Hs Hs').
  destruct (sw_parts pre post id Hr _ _ HF) as (_ & W & _).
  destruct (sw_parts pre post id Hr _ _ HG) as (_ & W' & _).
  rewrite (mem_free _ _ _ _ k' t' v Hp). rewrite <- (WT t' false k' v W').
  destruct T; cbn [wcheck check wbind write_ty wf_ty deduce_type guide_wf] in *.
  - apply andb_prop in W as [W _].
    destruct (lookups_written pre id (FMaybe b p ids) CNone post vs (VSome v) us ids Hv W) as [xs ->].
    rewrite H. auto.
  - apply andb_prop in W as [W _]. cbn [forallb] in W. apply andb_prop in W as [W _].
    cbn [eval_ladder snd] in *.
    destruct (lookups_written pre id (FUnion (GLadder ((p, ids) :: brs)) (ACons t k al)) CNone post vs (VAlt 0 v) us ids Hv W) as [xs ->].
    rewrite H. cbn [Nat.eqb write_alts]. auto.
  - apply andb_prop in W as [W _].
    destruct (lookups_written pre id (FUnion (GComp f r ids ((s0, z) :: cases)) (ACons t k al)) CNone post vs (VAlt 0 v) us ids Hv W) as [xs ->].
    unfold eval_switch. cbn [map fst snd first_true].
    rewrite H. cbn [Nat.eqb write_alts]. auto.
  - apply andb_prop in W as [W _]. destruct v; auto.
    destruct (lookups_written pre id (FUnion (GComp f r ids cases) al) CNone post vs (VAlt i v) us ids Hv W) as [xs L].
    pose proof (ladder_deduce _ f r ids cases _ L) as LD. cbn [deduce_type] in LD. rewrite LD. auto.
  - cbn [length Nat.eqb wfor]. destruct v; cbn [has_ty] in Ht'; try tauto. apply wbind_tt.
Qed.

Lemma absent_write c pre id b p ids post S s ws :
  (forall vs, p vs = false) ->
  wf (f_app pre (FCons id (FMaybe b p ids) CNone post)) = true -> ~ In id (refs_fields post) ->
  len_source b = [] ->
  has_fields (f_app pre post) ws ->
  wrun S (stream_cast c (f_app pre (FCons id (FMaybe b p ids) CNone post)) (put_in (f_len pre) VNone ws)) s =
  wrun S (stream_cast c (f_app pre post) ws) s.
Proof.
  intros Hp HF Hr Hs H. f_equal. apply has_cut in H as (vs & us & -> & Hv & Hu).
  pose proof (has_fields_length _ _ Hv) as L.
  assert (put_in (f_len pre) VNone (vs ++ us) = vs ++ VNone :: us) as ->.
  { unfold put_in. rewrite <- L, firstn_app, skipn_app, Nat.sub_diag, firstn_all, skipn_all. simpl.
    rewrite app_nil_r. auto. }
  destruct (sw_parts pre post id Hr _ _ HF) as (W1 & W2 & W3 & I1 & I2 & I3).
  assert (W4 : wf_fields (id :: rev (f_ids pre)) post = true).
  { apply wf_fields_app in HF as [_ HF]. cbn [wf_fields] in HF. apply andb_prop in HF as [_ HF].
    rewrite app_nil_r in HF. auto. }
  assert (HG : wf (f_app pre (FCons id (FStruct FNil) CNone post)) = true).
  { apply wf_glue; auto. rewrite app_nil_r. cbn [wf_fields wf_ty]. rewrite W4.
    destruct (memb id (rev (f_ids pre))) eqn:E; auto.
    apply memb_In, in_rev in E. tauto. }
  assert (HP : wf (f_app pre post) = true) by (apply wf_glue; auto; rewrite app_nil_r; auto).
  transitivity (stream_cast c (f_app pre (FCons id (FStruct FNil) CNone post)) (vs ++ VRec [] :: us)).
  - apply (swap_write c pre post id (FMaybe b p ids) (FStruct FNil) CNone CNone (fun _ => VNone) vs us (VRec []));
      cbn [has_ty has_fields all_sources]; auto; [rewrite Hs; auto|].
    cbn [is_frozen frozen_value]. rewrite !orb_false_r.
    assert (forall bb, (if bb : bool then WRet tt else wcheck CNone VNone) = WRet tt (E := reason)) as ->
      by (intros []; auto).
    assert (forall bb, (if bb : bool then WRet tt else wcheck CNone (VRec [])) = WRet tt (E := reason)) as ->
      by (intros []; auto).
    cbn [wbind write_ty]. cbn [wf_ty] in W2. apply andb_prop in W2 as [W2 _].
    destruct (lookups_written pre id (FMaybe b p ids) CNone post vs VNone us ids Hv W2) as [xs ->].
    rewrite Hp. cbn [write_fields wmaperr]. auto.
  - rewrite (group_prog c pre FNil post id vs [] us); auto; try (simpl; auto; fail).
    cbn [f_app app f_ids]. unfold blamed. cbn [memb existsb].
    induction (stream_cast c (f_app pre post) (vs ++ us)); simpl; try congruence.
    all: destruct e; simpl; congruence.
Qed.

Lemma sw_free_cond pre post id t k : wf (f_app pre (FCons id t k post)) = true ->
  ~ In id (refs_fields post) -> all_sources (FCons id t k FNil) = [] ->
  has_cond_obligation (f_app pre (FCons id t k post)) id = false.
Proof.
  intros HF Hr Hs. destruct (sw_parts pre post id Hr _ _ HF) as (W1 & _ & _ & I1 & _).
  change (FCons id t k post) with (f_app (FCons id t k FNil) post). rewrite !cond_split.
  rewrite !cond_silent; auto.
  - intros H. apply Hr. apply all_sources_refs; auto.
  - rewrite Hs. auto.
  - intros H. destruct (sources_seen pre [] id W1 H) as [[]|]; auto.
Qed.

Lemma write_constant c n elt xs : c_cx c = false -> ct_ok (TArr n elt) (VSeq xs) ->
  write_const c (TArr n elt) (n * csize elt) (VSeq xs) = write_var c elt xs.
Proof.
  intros Hcx H. pose proof H as [L Hx]. unfold write_const, write_var. destruct (is_host_order c) eqn:E.
  - pose proof (enc_ct_length (c_wire c) _ _ H) as Hl. cbn [csize] in Hl.
    pose proof (store_enc c _ E _ H) as HS. rewrite HS. cbn [store] in HS. rewrite L, Nat.eqb_refl in HS.
    destruct (sequence _); [|discriminate]. injection HS as ->. rewrite Hcx.
    unfold put_prefix. rewrite Hl, Nat.ltb_irrefl, <- Hl, firstn_all. auto.
  - cbn [foreign_chunks]. rewrite L, Nat.eqb_refl. destruct (sequence _); auto.
Qed.

Lemma constant_write c n pre id t t' z post S s ws :
  constant_length c n t t' z ->
  wf (f_app pre (FCons id t CNone post)) = true -> wf (f_app pre (FCons id t' CNone post)) = true ->
  ~ In id (refs_fields post) -> c_cx c = false ->
  has_fields (f_app pre (FCons id t' CNone post)) ws ->
  wrun S (stream_cast c (f_app pre (FCons id t CNone post)) ws) s =
  wrun S (stream_cast c (f_app pre (FCons id t' CNone post)) ws) s.
Proof.
  intros T HF HG Hr Hcx H. f_equal.
  apply has_at in H as (vs & v & us & -> & Hv & Ht' & Hu).
  assert (Ht : has_ty t v).
  { destruct T; destruct v; cbn [has_ty ct_ok] in *; tauto. }
  assert (Hs : all_sources (FCons id t CNone FNil) = []) by (destruct T; auto).
  assert (Hs' : all_sources (FCons id t' CNone FNil) = []) by (destruct T; auto).
  apply (swap_write c pre post id t t' CNone CNone (fun v => v) vs us v); auto.
  assert (FR : is_frozen t CNone = false) by (destruct T; auto).
  assert (FR' : is_frozen t' CNone = false) by (destruct T; auto).
  rewrite FR, FR'.
  assert (D := sw_free pre post id t t' CNone CNone HF HG Hr Hs'). rewrite D. cbn [orb].
  assert (CO := sw_free_cond pre post id t' CNone HG Hr Hs').
  destruct (sw_parts pre post id Hr _ _ HF) as (_ & W & _).
  unfold wcheck, check. cbn [wbind].
  assert (V : forall f ids (xs : list val), (forall ws, f ws = Z.of_nat n) ->
    Z.of_nat n < 256 ^ Z.of_nat (c_szw c) -> length xs = n -> all_in ids (rev (f_ids pre)) = true ->
    verify_len c (mk_env (f_app pre (FCons id t CNone post)) (vs ++ v :: us)) (LenComp f ids) (Z.of_nat (length xs)) = WRet tt).
  { intros f ids xs Hf Hn L Hi. cbn [verify_len deduce_len].
    destruct (lookups_written pre id t CNone post vs v us ids Hv Hi) as [as_ ->].
    rewrite Hf, L. unfold to_size. rewrite Z.mod_small by (split; [apply Nat2Z.is_nonneg|assumption]). rewrite Z.eqb_refl. auto. }
  destruct T; cbn [write_ty wf_ty len_wf] in *.
  - unfold write_fixed. rewrite D, FR', andb_false_r. unfold verify_then_write. rewrite CO.
    destruct v; try (cbn [has_ty] in Ht; tauto).
    pose proof Ht' as [L _]. rewrite V; auto; [|apply andb_prop in W; tauto]. cbn [wbind]. symmetry. apply write_constant; auto.
  - destruct v; try (cbn [has_ty] in Ht; tauto). destruct Ht' as [L _].
    rewrite V; auto.
    + rewrite L, Nat.eqb_refl. auto.
    + apply andb_prop in W. tauto.
Qed.
