(** Reading with a typed schema is never stuck; plain schemas have no undefined
    behaviour. *)
From Coq Require Import ZifyBool ZifyNat.
From Verif Require Import Read Spec PropDefs Typing BytesFacts ProgFacts ReadFacts ReadMore ReadLemmas.

(** No branch of the program is stuck, undefined behaviour only if [ub], results
    satisfy [Q] - for deliveries of the requested length. *)
Fixpoint rsafe {E A} (ub : Prop) (Q : A -> Prop) (p : rprog E A) : Prop :=
  match p with
  | RRet a => Q a
  | RErr _ => True
  | RUB => ub
  | RStuck => False
  | RRead n _ k => forall bs, length bs = Z.to_nat n -> Forall byte_ok bs -> rsafe ub Q (k bs)
  | RAlloc _ k => rsafe ub Q k
  end.

Lemma rsafe_bind {E A B} ub (P : A -> Prop) (Q : B -> Prop) (p : rprog E A) f :
  rsafe ub P p -> (forall a, P a -> rsafe ub Q (f a)) -> rsafe ub Q (rbind p f).
Proof. induction p; simpl; auto. Qed.

Lemma rsafe_maperr {E E' A} ub (P : A -> Prop) (g : E -> E') (p : rprog E A) :
  rsafe ub P p -> rsafe ub P (rmaperr g p).
Proof. induction p; simpl; auto. Qed.

Lemma rsafe_rrep {E A} ub (P : A -> Prop) n (p : rprog E A) :
  rsafe ub P p -> rsafe ub (fun l => length l = n /\ Forall P l) (rrep n p).
Proof.
  intros H. induction n; simpl; auto. eapply rsafe_bind; [exact H|]. intros a Ha.
  eapply rsafe_bind; [exact IHn|]. intros l [H1 H2]. simpl. auto.
Qed.

Lemma rsafe_impl {E A} (ub : Prop) (P Q : A -> Prop) (p : rprog E A) :
  (forall a, P a -> Q a) -> rsafe ub P p -> rsafe ub Q p.
Proof. intros Hi. induction p; simpl; auto. Qed.

Lemma rsafe_run {E A} ub (P : A -> Prop) (p : rprog E A) S alloc : delivers S -> rsafe ub P p ->
  forall s o s' ev, rrun S alloc p s = (o, s', ev) ->
  o <> Stuck /\ (o = UB -> ub) /\ (forall a, o = Ok a -> P a).
Proof.
  intros Hd. induction p; simpl; intros Hs s o s' ev Hr;
    try (inversion Hr; subst; repeat split; intros; congruence).
  - destruct (i_read S s n) as [[bs|] s1] eqn:Ei.
    + apply Hd in Ei as Hx. destruct Hx.
      destruct (rrun S alloc (k bs) s1) as [[o1 s2] ev1] eqn:Er.
      inversion Hr; subst. eauto.
    + inversion Hr; subst. repeat split; intros; congruence.
  - destruct (alloc n).
    + destruct (rrun S alloc p s) as [[o1 s2] ev1] eqn:Er. inversion Hr; subst. eauto.
    + inversion Hr; subst. repeat split; intros; congruence.
Qed.

Lemma rsafe_mem {E A} ub (P : A -> Prop) (p : rprog E A) : rsafe ub P p ->
  rall (fun _ => True) (fun _ => True) (fun n => 0 <= n) (fun _ => True) p ->
  forall bs, Forall byte_ok bs ->
  fst (rmem p bs) <> Stuck /\ (fst (rmem p bs) = UB -> ub) /\
  (forall a, fst (rmem p bs) = Ok a -> P a).
Proof.
  induction p; simpl; intros Hs Ha bs Hb; try (repeat split; intros; congruence).
  - destruct Ha as (Hn & _ & Ha).
    destruct (Z.leb_spec n (Z.of_nat (length bs))); [|simpl; repeat split; intros; congruence].
    apply H; auto.
    + apply Hs; [rewrite firstn_length; lia|apply Forall_firstn; auto].
    + apply Forall_skipn; auto.
  - apply IHp; tauto.
Qed.

(** ** Constant-size values *)

Lemma sequence_none {A} (l : list (option A)) : sequence l = None -> In None l.
Proof.
  induction l as [|[a|] l IH]; simpl; intros H; try discriminate; auto.
  destruct (sequence l); [discriminate|auto].
Qed.

Lemma load_total c t : no_bool t = true -> ct_wf t = true -> forall mem, load c t mem <> None.
Proof.
  induction t; simpl; intros Hn Hw mem.
  - destruct s as [w [|]|]; simpl; try discriminate.
  - destruct (sequence _) eqn:E; [discriminate|]. apply sequence_none in E.
    apply in_map_iff in E. destruct E as (m & E & _).
    apply andb_true_iff in Hw. destruct Hw. apply IHt in E; tauto.
  - discriminate.
  - discriminate.
Qed.

Lemma chunks_In w n : forall l x, In x (chunks w n l) -> length l = (n * w)%nat ->
  Forall byte_ok l -> length x = w /\ Forall byte_ok x.
Proof.
  induction n; intros l x Hin Hl Hb; simpl in *; [tauto|]. destruct Hin as [<-|Hin].
  - split; [rewrite firstn_length; lia|apply Forall_firstn; auto].
  - apply (IHn (skipn w l)); auto. rewrite skipn_length. lia. apply Forall_skipn; auto.
Qed.

Definition len_value (e : env) (l : lenspec) : Prop :=
  match l with
  | LenField id => exists z, lookup e id = Some (VZ z)
  | LenComp _ ids => exists vs, lookups e ids = Some vs
  end.

Lemma deduce_len_value c e l : len_value e l -> exists n, deduce_len c e l = Some n.
Proof.
  destruct l; simpl; intros [x H]; rewrite H; eauto.
Qed.

(** ** Constraints *)

Lemma str_ok_cstr n cs : str_ok n cs = true -> exists s, cstr cs = Some s.
Proof.
  unfold str_ok. intros H. apply andb_true_iff in H. destruct H as [_ H]. apply Z.eqb_eq in H.
  induction cs as [|b cs IH]; [simpl in H; lia|]. simpl.
  destruct (Z.eqb_spec b 0); [eauto|]. destruct cs as [|b' cs]; [simpl in H; congruence|].
  destruct IH as [s ->]; eauto.
Qed.

Lemma chars_of_ok l : Forall (fun x => exists z, x = VZ z /\ byte_ok z) l ->
  exists zs, chars_of l = Some zs.
Proof.
  induction 1 as [|x l (z & -> & _) H IH]; simpl; eauto. destruct IH as [zs ->]. eauto.
Qed.

Lemma ftoi_none s x : ftoi s x = None -> exists w sg, s = SInt w sg.
Proof. unfold ftoi. destruct s; eauto. destruct x as [| |[]]; discriminate. Qed.

Lemma check_typed t k v : constr_ok t k = true -> has_ty t v ->
  check k v <> CStuck /\ (tame t k = true -> check k v <> CUndef).
Proof.
  destruct k; simpl; intros Hk Hv; try (split; [discriminate|discriminate]).
  - unfold cres_of_bool. destruct t as [[s0| | |]| | | | | | ]; try discriminate; simpl in Hv; destruct v; try tauto;
      cbn [as_int].
    + destruct (do_cmp o (conv s z) lit); split; discriminate.
    + destruct (ftoi s (fdec w0 z)) eqn:E; [destruct (do_cmp o z0 lit); split; discriminate|]. split; [discriminate|].
      apply ftoi_none in E as (w' & sg & ->). discriminate.
  - unfold cres_of_bool. destruct t as [[s0| | |]| | | | | | ]; try discriminate; simpl in Hv; destruct v; try tauto;
      cbn [as_int].
    + destruct (existsb (fun l => conv s z =? l) lits); split; discriminate.
    + destruct (ftoi s (fdec w0 z)) eqn:E; [destruct (existsb (fun l => z0 =? l) lits); split; discriminate|]. split; [discriminate|].
      apply ftoi_none in E as (w' & sg & ->). discriminate.
  - assert (exists l, v = VSeq l) as [l ->].
    { destruct t as [[s0| | |]| | | | | | ]; try discriminate; simpl in Hv; destruct v; try tauto; eauto. }
    unfold cres_of_bool. destruct (xorb _ _); split; discriminate.
  - destruct t as [[s0| | |]| | | | | | ]; try discriminate. simpl in Hv. destruct v; try tauto.
    destruct Hv as [_ Hv]. apply chars_of_ok in Hv. destruct Hv as [zs ->].
    split; [|discriminate]. unfold fixed_string_eq.
    destruct (cstr zs), (cstr lit); simpl; destruct neg; try discriminate;
      unfold cres_of_bool; destruct (zlist_eqb _ _); simpl; discriminate.
  - destruct t as [[s0| | |]| | | | | | ]; try discriminate. simpl in Hv. destruct v; try tauto.
    destruct Hv as [_ Hv]. apply chars_of_ok in Hv. destruct Hv as [zs ->].
    split; [|discriminate]. clear Hk. induction lits; simpl; [discriminate|].
    unfold fixed_string_eq. destruct (cstr zs), (cstr a); simpl; try discriminate.
    unfold cres_of_bool. destruct (zlist_eqb _ _); try discriminate. auto.
  - assert (exists x, as_float w v = Some x) as [x ->].
    { destruct t as [[s0| | |]| | | | | | ]; try discriminate; simpl in Hv; destruct v; try tauto; simpl; eauto. }
    unfold cres_of_bool. destruct (do_fcmp o x (fdec w lit)); split; discriminate.
  - assert (exists x, as_float w v = Some x) as [x ->].
    { destruct t as [[s0| | |]| | | | | | ]; try discriminate; simpl in Hv; destruct v; try tauto; simpl; eauto. }
    unfold cres_of_bool. destruct (existsb (fun l => feqb x (fdec w l)) lits); split; discriminate.
  - unfold cres_of_bool. destruct (f v); split; discriminate.
Qed.

Lemma rsafe_check ub t k v : constr_ok t k = true -> has_ty t v -> (tame t k = true \/ ub) ->
  rsafe ub (fun v => has_ty t v) (rcheck k v).
Proof.
  intros Hk Hv Hu. destruct (check_typed t k v Hk Hv) as [H1 H2]. unfold rcheck.
  destruct (check k v) eqn:E; simpl; auto; try congruence.
  destruct Hu as [Hu|Hu]; auto. apply H2 in Hu. congruence.
Qed.

(** ** The environment holds values of the right types *)

Definition env_has (G : tenv) (e : env) : Prop :=
  forall id t, tlookup G id = Some t -> exists v, lookup e id = Some v /\ has_ty t v.

Definition covers (seen : list ident) (e : env) : Prop :=
  forall id, In id seen -> exists v, lookup e id = Some v.

Lemma covers_lookups seen e ids : covers seen e -> all_in ids seen = true ->
  exists vs, lookups e ids = Some vs.
Proof.
  intros Hc. unfold all_in. induction ids; simpl; intros H; eauto.
  apply andb_true_iff in H. destruct H as [H1 H2]. apply memb_In in H1.
  destruct (Hc _ H1) as [v ->]. destruct (IHids H2) as [vs ->]. eauto.
Qed.

Lemma len_value_typed G seen e l : env_has G e -> covers seen e ->
  len_wf seen l = true -> len_typed G l = true -> len_value e l.
Proof.
  intros Hg Hc Hw Ht. destruct l; simpl in *.
  - destruct (tlookup G id) as [t|] eqn:E; [|discriminate].
    apply Hg in E. destruct E as (v & Hl & Hv).
    destruct t as [[s| | |]| | | | | |]; try discriminate. simpl in Hv. destruct v; try tauto. eauto.
  - eapply covers_lookups; eauto.
Qed.

Lemma eval_ladder_total seen e brs : covers seen e ->
  forallb (fun b => all_in (snd b) seen) brs = true -> exists r, eval_ladder e brs = Some r /\
  forall i, r = Some i -> (i < length brs)%nat.
Proof.
  intros Hc. induction brs as [|[p ids] brs IH]; simpl; intros H.
  - eexists; split; eauto. discriminate.
  - apply andb_true_iff in H. destruct H as [H1 H2].
    destruct (covers_lookups _ _ _ Hc H1) as [vs ->]. destruct (p vs).
    + eexists; split; eauto. intros i Hi. inversion Hi; lia.
    + destruct (IH H2) as (r & -> & Hr). eexists; split; eauto.
      destruct r; simpl; intros i Hi; inversion Hi; subst. specialize (Hr _ eq_refl). lia.
Qed.

Lemma first_true_lt l i : first_true l = Some i -> (i < length l)%nat.
Proof.
  revert i. induction l as [|[|] l IH]; simpl; intros i H; try discriminate.
  - inversion H; lia.
  - destruct (first_true l); simpl in H; inversion H; subst. specialize (IH _ eq_refl). lia.
Qed.

Lemma deduce_type_total G seen e g n : env_has G e -> covers seen e ->
  guide_wf seen g = true -> guide_typed G g n = true ->
  exists r, deduce_type e g = Some r /\ forall i, r = Some i -> (i < n)%nat.
Proof.
  intros Hg Hc Hw Ht. destruct g; simpl in *.
  - destruct (tlookup G id) as [t|] eqn:E; [|discriminate].
    apply Hg in E. destruct E as (v & Hl & Hv).
    destruct t as [[s'| | |]| | | | | |]; try discriminate. simpl in Hv. destruct v; try tauto.
    rewrite Hl. apply andb_true_iff in Ht. destruct Ht as [_ Ht]. apply Nat.eqb_eq in Ht.
    eexists; split; eauto. intros i Hi. apply first_true_lt in Hi. rewrite map_length in Hi. lia.
  - destruct (covers_lookups _ _ _ Hc Hw) as [vs ->]. apply Nat.eqb_eq in Ht.
    eexists; split; eauto. intros i Hi. apply first_true_lt in Hi. rewrite map_length in Hi. lia.
  - apply Nat.eqb_eq in Ht. subst. eapply eval_ladder_total; eauto.
Qed.

Lemma env_has_update G e id t v : env_has G e -> (exists w, lookup e id = Some w) -> has_ty t v ->
  env_has ((id, t) :: G) (update e id v).
Proof.
  intros Hg Hd Hv id' t' Hl. simpl in Hl. destruct (String.eqb_spec id id').
  - inversion Hl; subst. exists v. split; auto. apply lookup_update_same; auto.
  - rewrite lookup_update_other by auto. auto.
Qed.

Lemma covers_update seen e id v : covers seen e -> (exists w, lookup e id = Some w) ->
  covers (id :: seen) (update e id v).
Proof.
  intros Hc Hd id' Hin. destruct (String.eqb_spec id id').
  - subst. eexists. apply lookup_update_same; auto.
  - rewrite lookup_update_other by auto. destruct Hin; [contradiction|auto].
Qed.

Lemma has_alt_nth al : forall i v, has_alt al i v <->
  exists t k, a_nth i al = Some (t, k) /\ has_ty t v.
Proof.
  induction al; intros [|i] v; simpl; split; try tauto; try (intros (? & ? & H & _); discriminate).
  - eauto.
  - intros (t' & k' & H & Hv). inversion H; subst; auto.
  - apply IHal.
  - apply IHal.
Qed.

(** ** The reader *)

Lemma read_fixed_safe c ub t n : ct_wf t = true -> (n <= csize t)%nat -> (no_bool t = true \/ ub) ->
  rsafe ub (ct_ok t) (read_fixed c t n).
Proof.
  intros Hw Hn Hu. unfold read_fixed. destruct (Nat.ltb_spec (csize t) n); [lia|].
  simpl. intros bs Hl Hb. rewrite Nat2Z.id in Hl.
  destruct (load c t (overlay (csize t) bs)) eqn:E; simpl.
  - apply load_overlay_iff with (n := n) in E; tauto.
  - destruct Hu as [Hu|Hu]; auto. exfalso. eapply load_total; eauto.
Qed.

Lemma read_raw_safe {ub} c esz n :  0 < esz -> 0 <= n * esz < pow256 (c_szw c) -> 0 <= n ->
  rsafe ub (fun mem => length mem = (Z.to_nat n * Z.to_nat esz)%nat /\ Forall byte_ok mem)
    (read_raw c esz n).
Proof.
  intros He Hn Hn0. unfold read_raw. destruct (c_cx c).
  - eapply rsafe_bind.
    + apply (rsafe_rrep ub (fun bs => length bs = Z.to_nat esz /\ Forall byte_ok bs)).
      simpl. auto.
    + simpl. intros l [H1 H2]. split.
      * rewrite <- H1. clear H1. induction H2 as [|x l [H3 H4] H5 IH]; simpl; auto.
        rewrite app_length. lia.
      * clear H1. induction H2 as [|x l [H3 H4] H5 IH]; simpl; auto. apply Forall_app; auto.
  - simpl. unfold to_size. rewrite Z.mod_small by lia. intros bs Hl Hb. split; auto. lia.
Qed.

Lemma read_var_safe c ub elt b len : ct_wf elt = true -> 0 <= len ->
  (no_bool elt = true \/ ub) ->
  rsafe ub (fun v => exists l, v = VSeq l /\ Forall (ct_ok elt) l) (read_var c elt len b).
Proof.
  intros Hw Hl Hu. unfold read_var. pose proof (csize_pos _ Hw).
  destruct (len_allowed _ _ _) eqn:Ea; simpl; auto.
  apply len_allowed_ceiling in Ea; try lia.
  assert (0 <= match b with Some m => m | None => c_dmax c end mod 256 ^ Z.of_nat (c_szw c)
                < 256 ^ Z.of_nat (c_szw c)) by (apply Z.mod_pos_bound; lia).
  eapply rsafe_bind; [apply read_raw_safe; unfold pow256; nia|].
  intros mem [H1 H2]. rewrite Nat2Z.id in H1.
  destruct (sequence _) eqn:E; simpl.
  - eexists; split; eauto. apply sequence_map_some in E.
    assert (Hch : forall x, In x (chunks (csize elt) (Z.to_nat len) mem) ->
                  length x = csize elt /\ Forall byte_ok x)
      by (intros; eapply chunks_In; eauto).
    clear H1 H2. induction E; constructor.
    + destruct (Hch x) as [G1 G2]; [left; auto|]. apply load_iff in H1; tauto.
    + apply IHE. intros; apply Hch; right; auto.
  - destruct Hu as [Hu|Hu]; auto. exfalso. apply sequence_none in E.
    apply in_map_iff in E. destruct E as (m & E & _). eapply load_total; eauto.
Qed.

Definition rs_ty (t : fty) : Prop := forall c ub G seen e,
  wf_ty seen t = true -> typed_ty G t = true -> (plain_ty t = true \/ ub) ->
  env_has G e -> covers seen e -> rsafe ub (has_ty t) (read_ty c e t).
Definition rs_fields (fs : fields) : Prop := forall c ub G seen e,
  wf_fields seen fs = true -> typed_fields G fs = true -> (plain_fields fs = true \/ ub) ->
  env_has G e -> covers seen e -> dom fs e -> rsafe ub (has_fields fs) (read_fields c e fs).
Definition rs_alts (al : alts) : Prop := forall c ub G seen e i,
  wf_alts seen al = true -> typed_alts G al = true -> (plain_alts al = true \/ ub) ->
  env_has G e -> covers seen e -> (i < a_len al)%nat -> rsafe ub (has_alt al i) (read_alts c e al i).

Lemma plain_and (a b : bool) (ub : Prop) : (a && b = true \/ ub) -> (a = true \/ ub) /\ (b = true \/ ub).
Proof. rewrite andb_true_iff. tauto. Qed.

Lemma rs_cast fs : rs_fields fs -> forall c ub,
  wf fs = true -> typed fs = true -> (plain_fields fs = true \/ ub) ->
  rsafe ub (has_fields fs) (struct_cast c fs).
Proof.
  intros H c ub Hw Ht Hp. apply (H c ub [] []); auto.
  - intros ? ? Hl; discriminate.
  - intros ? [].
  - apply dom_mk_env, default_fields_length.
Qed.

Lemma rs_record fs : rs_fields fs -> forall c ub,
  wf fs = true -> typed fs = true -> (plain_fields fs = true \/ ub) ->
  rsafe ub (fun x => match x with VRec vs => has_fields fs vs | _ => False end)
    (rbind (rmaperr fst (read_fields c (mk_env fs (default_fields fs)) fs))
           (fun vs => RRet (VRec vs))).
Proof.
  intros. eapply rsafe_bind.
  - apply rsafe_maperr. apply rs_cast; auto.
  - simpl. auto.
Qed.

Lemma reader_safe : (forall t, rs_ty t) /\ (forall fs, rs_fields fs) /\ (forall al, rs_alts al).
Proof.
  apply schema_mutind; unfold rs_ty, rs_alts.
  - intros t n c ub G seen e Hw Ht Hp Hg Hc. cbn [read_ty wf_ty plain_ty] in *.
    apply andb_true_iff in Hw. destruct Hw as [H1 H2]. apply read_fixed_safe; auto. destruct t; lia.
  - intros elt l b c ub G seen e Hw Ht Hp Hg Hc. cbn [read_ty wf_ty plain_ty typed_ty] in *.
    apply andb_true_iff in Hw. destruct Hw as [H1 H2].
    destruct (deduce_len_value c e l (len_value_typed _ _ _ _ Hg Hc H2 Ht)) as [n Hn].
    rewrite Hn. apply deduce_len_range in Hn.
    eapply rsafe_impl; [|apply (read_var_safe c ub elt b n H1); auto; lia].
    intros a (x & -> & Hx). exact Hx.
  - intros fs IH c ub G seen e Hw Ht Hp Hg Hc.
    eapply rsafe_impl; [|apply rs_record; eauto]. intros [] H; simpl; tauto.
  - intros n fs IH c ub G seen e Hw Ht Hp Hg Hc. cbn [read_ty]. eapply rsafe_bind.
    + apply rsafe_rrep. apply rs_record; eauto.
    + simpl. auto.
  - intros fs IH recsz l b c ub G seen e Hw Ht Hp Hg Hc. cbn [read_ty wf_ty typed_ty] in *.
    apply andb_true_iff in Hw. destruct Hw as [Hw H2].
    apply andb_true_iff in Hw. destruct Hw as [H1 H3].
    apply andb_true_iff in Ht. destruct Ht as [T1 T2].
    destruct (deduce_len_value c e l (len_value_typed _ _ _ _ Hg Hc H2 T2)) as [n Hn].
    rewrite Hn. destruct (len_allowed _ _ _); simpl; auto.
    eapply rsafe_bind; [apply rsafe_rrep; apply rs_record; eauto|].
    simpl. tauto.
  - intros b IH p ids c ub G seen e Hw Ht Hp Hg Hc. cbn [read_ty wf_ty typed_ty] in *.
    apply andb_true_iff in Hw. destruct Hw as [H1 H2].
    apply andb_true_iff in Ht. destruct Ht as [_ Ht].
    destruct (covers_lookups _ _ _ Hc H1) as [vs ->]. destruct (p vs); simpl; auto.
    eapply rsafe_bind; [eapply IH; eauto|]. simpl. auto.
  - intros g al IH c ub G seen e Hw Ht Hp Hg Hc. cbn [read_ty wf_ty typed_ty] in *.
    apply andb_true_iff in Hw. destruct Hw as [H1 H2].
    apply andb_true_iff in Ht. destruct Ht as [T1 T2].
    destruct (deduce_type_total _ _ _ _ _ Hg Hc H1 T1) as (r & -> & Hr).
    destruct r as [i|]; simpl; auto.
    eapply rsafe_bind; [eapply IH; eauto|]. simpl. auto.
  - intros c ub G seen e _ _ _ _ _ _. simpl. auto.
  - intros id t IHt k fs IHfs c ub G seen e Hw Ht Hp Hg Hc Hd.
    cbn [read_fields wf_fields typed_fields plain_fields] in *.
    apply andb_true_iff in Hw. destruct Hw as [Hw H3].
    apply andb_true_iff in Hw. destruct Hw as [H1 H2].
    apply andb_true_iff in Ht. destruct Ht as [Ht T3].
    apply andb_true_iff in Ht. destruct Ht as [T1 T2].
    apply plain_and in Hp. destruct Hp as [Hp P3]. apply plain_and in Hp. destruct Hp as [P1 P2].
    assert (Hx : exists w, lookup e id = Some w) by (apply Hd; left; auto).
    eapply rsafe_bind.
    + apply rsafe_maperr. eapply rsafe_bind; [eapply IHt; eauto|].
      intros v Hv. eapply rsafe_check; eauto.
    + intros v Hv. simpl in Hv. eapply rsafe_bind.
      * eapply (IHfs c ub ((id, t) :: G) (id :: seen)); eauto.
        -- apply env_has_update; auto.
        -- apply covers_update; auto.
        -- apply dom_update. intros x Hi. apply Hd. right; auto.
      * simpl. auto.
  - intros c ub G seen e i _ _ _ _ _ Hi. simpl in Hi. lia.
  - intros t IHt k al IHal c ub G seen e i Hw Ht Hp Hg Hc Hi.
    cbn [read_alts wf_alts typed_alts plain_alts a_len] in *.
    apply andb_true_iff in Hw. destruct Hw as [H1 H2].
    apply andb_true_iff in Ht. destruct Ht as [Ht T3].
    apply andb_true_iff in Ht. destruct Ht as [Ht T2].
    apply andb_true_iff in Ht. destruct Ht as [_ T1].
    apply plain_and in Hp. destruct Hp as [Hp P3]. apply plain_and in Hp. destruct Hp as [P1 P2].
    destruct i.
    + eapply rsafe_bind; [eapply IHt; eauto|].
      intros v Hv. eapply rsafe_impl; [|eapply rsafe_check; eauto]. auto.
    + eapply rsafe_impl; [|eapply IHal; eauto; lia]. auto.
Qed.

Lemma struct_cast_safe c ub fs :
  wf fs = true -> typed fs = true -> (plain_fields fs = true \/ ub) ->
  rsafe ub (has_fields fs) (struct_cast c fs).
Proof. destruct reader_safe as (_ & H & _). apply rs_cast; auto. Qed.

Lemma struct_cast_not_stuck c fs S alloc s o s' ev :
  wf fs = true -> typed fs = true -> delivers S ->
  rrun S alloc (struct_cast c fs) s = (o, s', ev) ->
  o <> Stuck /\ (forall vs, o = Ok vs -> has_fields fs vs).
Proof.
  intros Hw Ht Hd Hr.
  destruct (rsafe_run True _ _ S alloc Hd (struct_cast_safe c True fs Hw Ht (or_intror I)) _ _ _ _ Hr)
    as (H1 & _ & H3). auto.
Qed.

Lemma struct_cast_no_ub c fs S alloc s o s' ev :
  wf fs = true -> typed fs = true -> plain_fields fs = true -> delivers S ->
  rrun S alloc (struct_cast c fs) s = (o, s', ev) -> o <> UB.
Proof.
  intros Hw Ht Hp Hd Hr Ho.
  destruct (rsafe_run False _ _ S alloc Hd (struct_cast_safe c False fs Hw Ht (or_introl Hp)) _ _ _ _ Hr)
    as (_ & H2 & _). auto.
Qed.

(** ** The state after a prefix of the fields *)

Fixpoint tafter (G : tenv) (fs : fields) : tenv :=
  match fs with FNil => G | FCons id t _ fs' => tafter ((id, t) :: G) fs' end.

Lemma typed_fields_app pre gs : forall G,
  typed_fields G (f_app pre gs) = typed_fields G pre && typed_fields (tafter G pre) gs.
Proof.
  induction pre; intros G; simpl; auto. rewrite IHpre. rewrite !andb_assoc. auto.
Qed.

Lemma tlookup_tafter pre : forall G id t, tlookup (tafter G pre) id = Some t ->
  (~ In id (f_ids pre) /\ tlookup G id = Some t) \/ (In id (f_ids pre)).
Proof.
  induction pre; intros G id' t' H; simpl in *; auto.
  apply IHpre in H. destruct H as [[H1 H2]|H]; auto. simpl in H2.
  destruct (String.eqb_spec id id'); auto. subst. left. split; auto. intros [->|]; auto.
Qed.

Lemma env_has_fields pre : forall vs, has_fields pre vs -> NoDup (f_ids pre) ->
  forall G, (forall id, In id (f_ids pre) -> tlookup G id = None) ->
  forall id t, tlookup (tafter G pre) id = Some t -> tlookup G id = None ->
  exists v, lookup (mk_env pre vs) id = Some v /\ has_ty t v.
Proof.
  induction pre; intros [|v vs] Hv Hn G HG id' t' Hl Hg; simpl in *; try tauto; try congruence.
  destruct Hv as [H1 H2]. inversion Hn; subst. destruct (String.eqb_spec id id').
  - subst. exists v. split; auto. apply tlookup_tafter in Hl. destruct Hl as [[_ Hl]|Hl]; [|contradiction].
    simpl in Hl. rewrite String.eqb_refl in Hl. inversion Hl; subst; auto.
  - apply (IHpre vs H2 H4 ((id, t) :: G)); auto.
    + intros x Hx. simpl. destruct (String.eqb_spec id x); [congruence|]. apply HG; auto.
    + simpl. destruct (String.eqb_spec id id'); [congruence|auto].
Qed.

Lemma has_fields_length fs : forall vs, has_fields fs vs -> length vs = f_len fs.
Proof. induction fs; intros [|v vs] H; simpl in *; try tauto. destruct H. f_equal; auto. Qed.

Lemma after_prefix c S alloc pre id t k post s vs s1 ev1 :
  wf (f_app pre (FCons id t k post)) = true ->
  typed (f_app pre (FCons id t k post)) = true -> delivers S ->
  rrun S alloc (struct_cast c pre) s = (Ok vs, s1, ev1) ->
  exists G seen, wf_ty seen t = true /\ typed_ty G t = true /\
    env_has G (mk_env pre vs) /\ covers seen (mk_env pre vs).
Proof.
  intros Hw Ht Hd Hr. unfold typed in Ht. rewrite typed_fields_app in Ht.
  apply andb_true_iff in Ht. destruct Ht as [T1 T2].
  pose proof (wf_app_l _ _ Hw) as Hwp. unfold wf in Hw. apply wf_fields_app in Hw.
  destruct Hw as [W1 W2]. cbn [wf_fields typed_fields] in *.
  apply andb_true_iff in W2. destruct W2 as [W2 _]. apply andb_true_iff in W2. destruct W2 as [_ W2].
  apply andb_true_iff in T2. destruct T2 as [T2 _]. apply andb_true_iff in T2. destruct T2 as [T2 _].
  destruct (struct_cast_not_stuck _ _ _ _ _ _ _ _ Hwp T1 Hd Hr) as [_ Hh].
  specialize (Hh _ eq_refl). exists (tafter [] pre), (rev (f_ids pre) ++ []).
  split; auto. split; auto. apply wf_fields_ids in W1. split.
  - intros id' t' Hl. eapply env_has_fields; eauto; tauto.
  - intros x Hx. rewrite app_nil_r in Hx. apply in_rev in Hx.
    apply dom_mk_env; auto. apply has_fields_length; auto.
Qed.

Lemma len_value_is c e l : len_value e l -> exists n, len_is c e l n.
Proof.
  intros H. destruct (deduce_len_value c e l H) as [z Hz]. exists (Z.to_nat z).
  apply deduce_len_range in Hz as Hr. destruct l; simpl in *.
  - destruct H as [x Hx]. rewrite Hx in *. inversion Hz; subst. exists x. split; auto.
    unfold to_size, pow256 in *. lia.
  - destruct H as [x Hx]. rewrite Hx in *. inversion Hz; subst. exists x. split; auto.
    unfold to_size, pow256 in *. lia.
Qed.

Lemma excessive_var_typed c S alloc pre id elt l b k post s vs s1 ev1 :
  wf (f_app pre (FCons id (FVar elt l b) k post)) = true ->
  typed (f_app pre (FCons id (FVar elt l b) k post)) = true -> delivers S ->
  rrun S alloc (struct_cast c pre) s = (Ok vs, s1, ev1) ->
  exists n, len_is c (mk_env pre vs) l n /\
  (ceiling_of c b < Z.of_nat n * Z.of_nat (csize elt) ->
   rrun S alloc (struct_cast c (f_app pre (FCons id (FVar elt l b) k post))) s =
     (Err (ExcessiveLength, id), s1, ev1)) /\
  (Z.of_nat n * Z.of_nat (csize elt) <= ceiling_of c b ->
   exists o s' ev,
   rrun S alloc (struct_cast c (f_app pre (FCons id (FVar elt l b) k post))) s =
     (o, s', ev1 ++ EvAlloc (Z.of_nat n * Z.of_nat (csize elt)) :: ev) /\
   o <> Err (ExcessiveLength, id)).
Proof.
  intros Hw Ht Hd Hr. destruct (after_prefix _ _ _ _ _ _ _ _ _ _ _ _ Hw Ht Hd Hr)
    as (G & seen & W & T & He & Hc). cbn [wf_ty typed_ty] in *.
  apply andb_true_iff in W. destruct W as [W1 W2].
  destruct (len_value_is c _ l (len_value_typed _ _ _ _ He Hc W2 T)) as [n Hn].
  exists n. split; auto. eapply excessive_var; eauto.
Qed.

Lemma excessive_vec_typed c S alloc pre id fs recsz l b k post s vs s1 ev1 :
  wf (f_app pre (FCons id (FVecRec fs recsz l b) k post)) = true ->
  typed (f_app pre (FCons id (FVecRec fs recsz l b) k post)) = true -> delivers S ->
  rrun S alloc (struct_cast c pre) s = (Ok vs, s1, ev1) ->
  exists n, len_is c (mk_env pre vs) l n /\
  (ceiling_of c b < Z.of_nat n * recsz ->
   rrun S alloc (struct_cast c (f_app pre (FCons id (FVecRec fs recsz l b) k post))) s =
     (Err (ExcessiveLength, id), s1, ev1)) /\
  (Z.of_nat n * recsz <= ceiling_of c b ->
   exists o s' ev,
   rrun S alloc (struct_cast c (f_app pre (FCons id (FVecRec fs recsz l b) k post))) s =
     (o, s', ev1 ++ EvAlloc (Z.of_nat n * recsz) :: ev)).
Proof.
  intros Hw Ht Hd Hr. destruct (after_prefix _ _ _ _ _ _ _ _ _ _ _ _ Hw Ht Hd Hr)
    as (G & seen & W & T & He & Hc). cbn [wf_ty typed_ty] in *.
  apply andb_true_iff in W. destruct W as [W1 W2].
  apply andb_true_iff in T. destruct T as [T1 T2].
  destruct (len_value_is c _ l (len_value_typed _ _ _ _ He Hc W2 T2)) as [n Hn].
  exists n. split; auto. eapply excessive_vec; eauto.
Qed.

Lemma maybe_read_typed c S alloc pre id b p ids s vs s1 ev1 :
  wf (f_app pre (FCons id (FMaybe b p ids) CNone FNil)) = true ->
  rrun S alloc (struct_cast c pre) s = (Ok vs, s1, ev1) ->
  exists args, lookups (mk_env pre vs) ids = Some args /\
  rrun S alloc (struct_cast c (f_app pre (FCons id (FMaybe b p ids) CNone FNil))) s =
  if p args then
    match rrun S alloc (struct_cast c (f_app pre (FCons id b CNone FNil))) s with
    | (o, s2, ev2) => (on_last VSome o, s2, ev2)
    end
  else (Ok (vs ++ [VNone]), s1, ev1).
Proof.
  intros Hw Hr. assert (exists args, lookups (mk_env pre vs) ids = Some args) as [args Ha].
  { assert (Hl := rrun_read_fields_length _ _ _ _ _ _ _ _ _ Hr).
    unfold wf in Hw. apply wf_fields_app in Hw. destruct Hw as [W1 W2].
    cbn [wf_fields wf_ty] in W2. rewrite !andb_true_iff in W2.
    destruct W2 as [[_ [W2 _]] _].
    apply (covers_lookups (rev (f_ids pre) ++ [])); [|exact W2].
    intros x Hx. rewrite app_nil_r in Hx. apply in_rev in Hx. apply dom_mk_env; auto. }
  exists args. split; auto. apply maybe_read; auto.
Qed.

Lemma union_read_typed c S alloc pre id g al s vs s1 ev1 :
  wf (f_app pre (FCons id (FUnion g al) CNone FNil)) = true ->
  typed (f_app pre (FCons id (FUnion g al) CNone FNil)) = true -> delivers S ->
  rrun S alloc (struct_cast c pre) s = (Ok vs, s1, ev1) ->
  (exists i t k, selects (mk_env pre vs) g i /\ a_nth i al = Some (t, k) /\
     rrun S alloc (struct_cast c (f_app pre (FCons id (FUnion g al) CNone FNil))) s =
     match rrun S alloc (struct_cast c (f_app pre (FCons id t k FNil))) s with
     | (o, s2, ev2) => (on_last (VAlt i) o, s2, ev2)
     end) \/
  ((forall i, ~ selects (mk_env pre vs) g i) /\
     rrun S alloc (struct_cast c (f_app pre (FCons id (FUnion g al) CNone FNil))) s =
     (Err (TypeDeductionFailure, id), s1, ev1)).
Proof.
  intros Hw Ht Hd Hr. destruct (after_prefix _ _ _ _ _ _ _ _ _ _ _ _ Hw Ht Hd Hr)
    as (G & seen & W & T & He & Hc). cbn [wf_ty typed_ty] in *.
  apply andb_true_iff in W. destruct W as [W1 W2].
  apply andb_true_iff in T. destruct T as [T1 T2].
  destruct (deduce_type_total _ _ _ _ _ He Hc W1 T1) as (r & Hdt & Hlt).
  destruct (union_read _ _ _ _ _ _ _ _ _ _ _ Hw Hr) as [H1 H2].
  destruct r as [i|].
  - left. specialize (Hlt _ eq_refl).
    assert (exists t k, a_nth i al = Some (t, k)) as (t & k & Hn).
    { clear -Hlt. revert i Hlt. induction al; intros i Hi; simpl in *; [lia|].
      destruct i; [simpl; eauto|]. apply IHal. lia. }
    apply deduce_type_iff in Hdt. exists i, t, k. auto.
  - right. assert (Hno : forall i, ~ selects (mk_env pre vs) g i).
    { intros i Hi. apply deduce_type_iff in Hi. congruence. }
    split; auto. apply H2; eauto.
Qed.
