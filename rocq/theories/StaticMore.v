(** * Accessors, options and type ids: lemmas *)
From Coq Require Import String Permutation ZifyBool ZifyNat.
From Verif Require Import Static StaticSpec PropDefs BytesFacts ProgFacts ReadFacts Safety WriteFacts WriteMain WriteLoc WriteErr WriteRel
  WriteMore WriteFinal RTrip RTrip2 StaticFacts StaticDeps StaticWf.
Local Open Scope list_scope.

(** ** Accessors *)

Lemma in_ids_iff ids name : is_in_ids ids name = true <-> In name ids.
Proof.
  unfold is_in_ids. rewrite existsb_exists. split.
  - intros (x & H & E). apply String.eqb_eq in E. subst. auto.
  - intros H. exists name. split; auto. apply String.eqb_refl.
Qed.

Lemma concat_lengths fs : concat (map len_sources_of (f_types fs)) = lengths fs.
Proof. unfold lengths. induction fs as [|id t k fs IH]; simpl; auto. f_equal. auto. Qed.

Lemma concat_discs fs : concat (map discriminants_of (f_types fs)) = discriminants fs.
Proof. unfold discriminants. induction fs as [|id t k fs IH]; simpl; auto. f_equal. auto. Qed.

Lemma derived_ids_facts (of : fty -> list ident) fs : (length (concat (map of (f_types fs))) <= 64)%nat ->
  exists ids, derived_ids of fs = Some ids /\
    forall d, In d ids <-> In d (concat (map of (f_types fs))).
Proof.
  intros H. unfold derived_ids.
  replace (flatten_ids (map of (f_types fs))) with (Some (concat (map of (f_types fs)))).
  - destruct (remove_duplicates_total _ H) as (r & E & _). rewrite E. exists r. split; auto.
    apply remove_duplicates_facts; auto.
  - symmetry. apply flatten_ids_eq. auto.
Qed.

Lemma f_nth_list fs : forall i, f_nth fs i =
  match nth_error (f_list fs) i with Some (_, t, k) => Some (t, k) | None => None end.
Proof. induction fs as [|id t k fs IH]; intros [|i]; simpl; auto. Qed.

Lemma field_of_list fs id : NoDup (f_ids fs) -> forall t k, field_of fs id = Some (t, k) <->
  exists i, nth_error (f_list fs) i = Some (id, t, k).
Proof.
  induction fs as [|i u c fs IH]; simpl; intros HN t k.
  - split; [discriminate|]. intros ([|n] & H); discriminate.
  - inversion HN as [|? ? H1 H2]; subst. destruct (String.eqb_spec i id) as [->|NE].
    + split.
      * intros H. injection H as -> ->. exists 0%nat. auto.
      * intros ([|n] & H); simpl in H; [congruence|]. exfalso. apply H1. rewrite f_ids_list.
        apply in_map_iff. exists (id, t, k). split; auto. eapply nth_error_In; eauto.
    + rewrite IH; auto. split.
      * intros (n & H). exists (S n). auto.
      * intros ([|n] & H); simpl in H; [congruence|]. eauto.
Qed.

Lemma field_of_in fs id : In id (f_ids fs) <-> exists t k, field_of fs id = Some (t, k).
Proof.
  split.
  - intros H. destruct (field_of fs id) as [[t k]|] eqn:E; [eauto|]. exfalso.
    eapply field_of_none; eauto.
  - intros (t & k & H). revert H. induction fs as [|i u c fs IH]; simpl; [discriminate|].
    destruct (String.eqb_spec i id); auto.
Qed.

Section Access.
Variable fs : fields.
Hypothesis Hn : NoDup (f_ids fs).
Hypothesis Hl : (f_len fs <= 256)%nat.
Hypothesis H1 : (length (lengths fs) <= 64)%nat.
Hypothesis H2 : (length (discriminants fs) <= 64)%nat.

Lemma index_eq const_obj name : name <> EmptyString -> op_index const_obj fs name =
  match field_of fs name with
  | None => NoOverload
  | Some (t, k) =>
      if memb name (lengths fs) then NoOverload
      else if const_obj || memb name (discriminants fs) || is_frozen t k then ConstRef
      else MutableRef
  end.
Proof.
  intros HE. unfold op_index.
  destruct (table_total (fun _ => 0) fs Hl) as (ft & EF). rewrite EF.
  destruct (derived_ids_facts len_sources_of fs) as (ls & El & HL); [rewrite concat_lengths; auto|].
  destruct (derived_ids_facts discriminants_of fs) as (ds & Ed & HD); [rewrite concat_discs; auto|].
  rewrite El, Ed. rewrite concat_lengths in HL. rewrite concat_discs in HD.
  assert (is_in_ids ls name = memb name (lengths fs)) as ->.
  { apply Bool.eq_iff_eq_true. rewrite in_ids_iff, memb_iff. apply HL. }
  assert (is_in_ids ds name = memb name (discriminants fs)) as ->.
  { apply Bool.eq_iff_eq_true. rewrite in_ids_iff, memb_iff. apply HD. }
  destruct (map_get ft name) as [x|] eqn:EG.
  - apply (table_get _ _ _ _ _ EF Hn) in EG. destruct EG as [(K & _)|(_ & i & Hi & ->)]; [congruence|].
    cbn [fi_at]. rewrite f_nth_list.
    assert (exists t k, nth_error (f_list fs) i = Some (name, t, k)) as (t & k & Ei).
    { rewrite f_ids_list in Hi. destruct (nth_error (f_list fs) i) as [[[a b] e]|] eqn:E.
      - apply (map_nth_error (fun x => fst (fst x))) in E as E'. rewrite E' in Hi. injection Hi as <-. eauto.
      - apply nth_error_None in E. assert (nth_error (map (fun x => fst (fst x)) (f_list fs)) i = None).
        { apply nth_error_None. rewrite map_length. auto. } congruence. }
    rewrite Ei. assert (field_of fs name = Some (t, k)) as -> by (apply field_of_list; eauto).
    destruct const_obj, (memb name (lengths fs)), (memb name (discriminants fs)), (is_frozen t k); auto.
  - destruct (field_of fs name) as [[t k]|] eqn:E; auto. exfalso.
    apply field_of_list in E; auto. destruct E as (i & E). destruct (types_nth _ _ _ _ _ E) as (_ & E').
    assert (map_get ft name = Some (mkInfo 0 i)); [|congruence].
    apply (table_get _ _ _ _ _ EF Hn). right. eauto.
Qed.
End Access.

Lemma sources_split fs id : memb id (sources fs) = memb id (lengths fs) || memb id (discriminants fs).
Proof.
  unfold lengths, discriminants. induction fs as [|i t k fs IH]; auto. simpl.
  rewrite !memb_app, IH. destruct t as [|e [j|] b| | |gs r [j|] b| |[j s cs| |] al]; simpl;
    destruct (memb id (flat_map _ _)), (memb id (flat_map _ _)); rewrite ?orb_true_r, ?orb_false_r; auto.
Qed.

Lemma frozen_iff t k : is_frozen t k =
  match t with FFixed t' _ => match pinned t' k with Some _ => true | None => false end | _ => false end.
Proof. unfold is_frozen. destruct t; auto. Qed.

Lemma members_of GA fs id t k : members GA fs -> field_of fs id = Some (t, k) -> tlookup GA id = Some t.
Proof.
  induction fs as [|i u c fs IH]; simpl; [discriminate|]. intros (M1 & M2).
  destruct (String.eqb_spec i id); auto. intros E. injection E as -> ->. subst. auto.
Qed.

(** The names a length or discriminant is taken from are scalars. *)
Lemma source_scalar fs id t k : wf fs = true -> typed fs = true -> memb id (sources fs) = true ->
  field_of fs id = Some (t, k) -> exists s n, t = FFixed (TScalar s) n.
Proof.
  intros Hw Ht Hs Hf. rewrite <- is_derived_sources in Hs.
  destruct (wf_fields_ids _ _ Hw) as [Hn _]. pose proof (members_tafter fs [] Hn) as Hm.
  destruct (targets_scalar (tafter [] fs) id fs []) as (s & n & Hl); auto.
  { intros i u. discriminate. }
  { rewrite Hs. auto. }
  rewrite (members_of _ _ _ _ _ Hm Hf) in Hl. injection Hl as ->. eauto.
Qed.

Lemma overwritten_eq fs id t k : wf fs = true -> typed fs = true -> field_of fs id = Some (t, k) ->
  overwritten fs id t k = memb id (lengths fs) || memb id (discriminants fs) || is_frozen t k.
Proof.
  intros Hw Ht Hf. rewrite <- sources_split, frozen_iff. unfold overwritten.
  destruct (memb id (sources fs)) eqn:E.
  - destruct (source_scalar _ _ _ _ Hw Ht E Hf) as (s & n & ->). auto.
  - destruct t; auto.
Qed.

Section Policy.
Variables (fs : fields) (id : ident).
Hypothesis Hw : wf fs = true.
Hypothesis Ht : typed fs = true.
Hypothesis Hl : (f_len fs <= 256)%nat.
Hypothesis H1 : (length (lengths fs) <= 64)%nat.
Hypothesis H2 : (length (discriminants fs) <= 64)%nat.
Hypothesis Hid : id <> EmptyString.

Lemma policy_mutable : op_index false fs id = MutableRef <->
  exists t k, field_of fs id = Some (t, k) /\ overwritten fs id t k = false.
Proof.
  destruct (wf_fields_ids _ _ Hw) as [Hn _]. rewrite index_eq by auto. split.
  - destruct (field_of fs id) as [[t k]|] eqn:E; [|discriminate]. intros H. exists t, k. split; auto.
    rewrite overwritten_eq by auto. destruct (memb id (lengths fs)); [discriminate|].
    destruct (memb id (discriminants fs)), (is_frozen t k); simpl in *; auto; discriminate.
  - intros (t & k & E & Ho). rewrite E. rewrite overwritten_eq in Ho by auto.
    destruct (memb id (lengths fs)), (memb id (discriminants fs)), (is_frozen t k); auto; discriminate.
Qed.

Lemma policy_const_ref : op_index false fs id = ConstRef <->
  exists t k, field_of fs id = Some (t, k) /\ overwritten fs id t k = true /\ ~ In id (lengths fs).
Proof.
  destruct (wf_fields_ids _ _ Hw) as [Hn _]. rewrite index_eq by auto. split.
  - destruct (field_of fs id) as [[t k]|] eqn:E; [|discriminate]. intros H. exists t, k. split; auto.
    rewrite overwritten_eq by auto. rewrite <- memb_iff. destruct (memb id (lengths fs)); [discriminate|].
    destruct (memb id (discriminants fs)), (is_frozen t k); simpl in *; auto; discriminate.
  - intros (t & k & E & Ho & Hnl). rewrite E. rewrite overwritten_eq in Ho by auto.
    rewrite <- memb_iff in Hnl.
    destruct (memb id (lengths fs)), (memb id (discriminants fs)), (is_frozen t k); auto; try discriminate; tauto.
Qed.

Lemma policy_hidden const_obj : op_index const_obj fs id = NoOverload <->
  ~ In id (f_ids fs) \/ In id (lengths fs).
Proof.
  destruct (wf_fields_ids _ _ Hw) as [Hn _]. rewrite index_eq by auto. rewrite field_of_in, <- memb_iff.
  destruct (field_of fs id) as [[t k]|] eqn:E.
  - destruct (memb id (lengths fs)); [tauto|].
    destruct (const_obj || memb id (discriminants fs) || is_frozen t k); split; try discriminate;
      intros [K|K]; try discriminate; exfalso; eauto.
  - split; auto. intros _. left. intros (t & k & K). discriminate.
Qed.

Lemma policy_const_obj : op_index true fs id = ConstRef <-> In id (f_ids fs) /\ ~ In id (lengths fs).
Proof.
  destruct (wf_fields_ids _ _ Hw) as [Hn _]. rewrite index_eq by auto. rewrite field_of_in, <- memb_iff.
  destruct (field_of fs id) as [[t k]|] eqn:E.
  - destruct (memb id (lengths fs)); simpl; split; try discriminate; try tauto.
    intros _. split; [eauto|discriminate].
  - split; [discriminate|]. intros ((t & k & K) & _). discriminate.
Qed.
End Policy.

Lemma policy_agrees fs lens discs id :
  derived_ids len_sources_of fs = Some lens -> derived_ids discriminants_of fs = Some discs ->
  is_length_derived fs id = is_in_ids lens id /\ is_disc_derived fs id = is_in_ids discs id.
Proof.
  unfold derived_ids. intros E1 E2.
  destruct (flatten_ids (map len_sources_of _)) as [v1|] eqn:F1; [|discriminate].
  destruct (flatten_ids (map discriminants_of _)) as [v2|] eqn:F2; [|discriminate].
  apply flatten_ids_eq in F1. apply flatten_ids_eq in F2. destruct F1 as (L1 & ->). destruct F2 as (L2 & ->).
  pose proof (remove_duplicates_facts _ _ L1 E1 id) as R1. pose proof (remove_duplicates_facts _ _ L2 E2 id) as R2.
  rewrite concat_lengths in R1. rewrite concat_discs in R2. clear - R1 R2. split; apply Bool.eq_iff_eq_true.
  - rewrite in_ids_iff, R1. clear. unfold lengths. induction fs as [|i t k fs IH]; simpl; [split; [discriminate|tauto]|].
    rewrite orb_true_iff, in_app_iff, IH.
    destruct t as [|e [j|] b| | |gs r [j|] b| |]; simpl; rewrite ?String.eqb_eq; intuition discriminate.
  - rewrite in_ids_iff, R2. clear. unfold discriminants. induction fs as [|i t k fs IH]; simpl; [split; [discriminate|tauto]|].
    rewrite orb_true_iff, in_app_iff, IH.
    destruct t as [| | | | | |[j s cs| |] al]; simpl; rewrite ?String.eqb_eq; intuition discriminate.
Qed.

Lemma derived_ids_none (of : fty -> list ident) fs :
  derived_ids of fs = None <-> (64 < length (concat (map of (f_types fs))))%nat.
Proof.
  split.
  - intros H. destruct (Nat.le_gt_cases (length (concat (map of (f_types fs)))) 64) as [K|K]; auto.
    destruct (derived_ids_facts of fs K) as (ids & E & _). congruence.
  - intros H. unfold derived_ids. destruct (flatten_ids _) as [v|] eqn:E; auto.
    apply flatten_ids_eq in E. lia.
Qed.

Lemma policy_ill b fs id : op_index b fs id = IllFormed <->
  (256 < f_len fs \/ 64 < length (lengths fs) \/ 64 < length (discriminants fs))%nat.
Proof.
  unfold op_index. rewrite <- concat_lengths, <- concat_discs, <- !derived_ids_none.
  destruct (field_table (fun _ => 0) fs) as [ft|] eqn:EF.
  - apply table_size in EF as HS. destruct (derived_ids len_sources_of fs) as [l|].
    + destruct (derived_ids discriminants_of fs) as [d|].
      * split; [|intros [?|[?|?]]; [lia|discriminate|discriminate]].
        destruct (map_get ft id); [|discriminate].
        destruct (negb b && _); [discriminate|]. destruct (negb b && _); [discriminate|].
        destruct (negb _); discriminate.
      * split; auto.
    + split; auto.
  - split; auto. intros _. left. destruct (Nat.le_gt_cases (f_len fs) 256) as [K|K]; auto.
    destruct (table_total (fun _ => 0) fs K) as (ft & E). congruence.
Qed.

Lemma lookup_at_own tid fs ft id : field_table tid fs = Some ft -> NoDup (f_ids fs) -> id <> EmptyString ->
  forall x, map_get ft id = Some x <-> exists i, nth_error (f_ids fs) i = Some id /\ x = mkInfo (tid i) i.
Proof.
  intros HF HN Hid x. rewrite (table_get _ _ _ _ _ HF HN). split.
  - intros [(K & _)|(_ & K)]; [congruence|auto].
  - intros K. right. auto.
Qed.

Lemma lookup_undeclared tid fs ft id : field_table tid fs = Some ft -> NoDup (f_ids fs) -> id <> EmptyString ->
  ~ In id (f_ids fs) -> map_get ft id = None.
Proof.
  intros HF HN Hid Hin. destruct (map_get ft id) as [x|] eqn:E; auto. exfalso.
  apply (lookup_at_own _ _ _ _ HF HN Hid) in E. destruct E as (i & E & _). apply Hin. eapply nth_error_In; eauto.
Qed.

Lemma lookup_exists tid fs : field_table tid fs <> None <-> (f_len fs <= 256)%nat.
Proof.
  split.
  - intros H. destruct (field_table tid fs) eqn:E; [|congruence]. eapply table_size; eauto.
  - intros H. destruct (table_total tid fs H) as (ft & ->). discriminate.
Qed.

(** ** What the writer does with a slot *)

Lemma assignable_written c fs vs pre id t k v out : wf fs = true -> typed fs = true -> has_fields fs vs ->
  field_at fs vs pre id t k v -> overwritten fs id t k = false -> wmem (stream_cast c fs vs) = (Ok tt, out) ->
  exists rest, out = bytes_before c pre (emitted c fs vs) ++ enc_ty (c_wire c) t (emit_ty c t v) ++ rest.
Proof.
  intros Hw Ht Hv Hat Ho Hok. pose proof (write_encodes _ _ _ _ Hw Ht Hv Hok) as ->.
  destruct (emitted_split c fs vs pre id t k v Hat) as (post & vpre & vpost & E1 & E2 & L & E3).
  rewrite (not_overwritten c fs vs pre id t k v Hw Ht Hv Hat Ho) in E3.
  unfold bytes_before. rewrite E3. clear E3. subst fs.
  assert (forall pre' ws gs xs, length ws = f_len pre' -> enc_fields (c_wire c) (f_app pre' gs) (ws ++ xs) =
            enc_fields (c_wire c) pre' ws ++ enc_fields (c_wire c) gs xs) as HA.
  { clear. induction pre' as [|i t k pre IH]; intros [|w ws] gs xs HL; simpl in *; try discriminate; auto.
    rewrite IH by lia. rewrite app_assoc. auto. }
  set (ws := emit_fields c _ pre vpre).
  assert (length ws = f_len pre) as Lw by (apply emit_fields_length; auto).
  rewrite HA by auto. rewrite firstn_app, Lw, Nat.sub_diag, app_nil_r, firstn_all2 by lia.
  simpl. eexists. reflexivity.
Qed.

Lemma refused_ignored c pre id t k post vpre v v' vpost :
  let fs := f_app pre (FCons id t k post) in
  wf fs = true -> typed fs = true -> length vpre = f_len pre ->
  has_fields fs (vpre ++ v :: vpost) -> has_fields fs (vpre ++ v' :: vpost) ->
  overwritten fs id t k = true -> emitted c fs (vpre ++ v :: vpost) = emitted c fs (vpre ++ v' :: vpost).
Proof.
  intros fs Hw Ht HL Hv Hv' Ho.
  assert (Hat : field_at fs (vpre ++ v :: vpost) pre id t k v) by (exists post, vpre, vpost; auto).
  destruct t as [ct n| | | | | |]; try discriminate.
  assert (HC : forall i, claims c i fs (vpre ++ v :: vpost) = claims c i fs (vpre ++ v' :: vpost)).
  { intros i. unfold fs. revert HL. clear. revert vpre.
    induction pre as [|j t' k' pre IH]; intros [|w ws] HL; simpl in *; try discriminate; auto.
    rewrite IH by lia. auto. }
  unfold emitted. unfold fs at 2 4.
  assert (forall f g, (forall i, f i = g i) -> forall gs xs, emit_fields c f gs xs = emit_fields c g gs xs) as HE.
  { clear. intros f g H gs. induction gs as [|i t k gs IH]; intros [|x xs]; simpl; auto. rewrite H, IH. auto. }
  rewrite (HE _ (fun i => hd_error (claims c i fs (vpre ++ v' :: vpost)))) by (intros i; rewrite HC; auto).
  rewrite !emit_fields_app by auto. f_equal. cbn [emit_fields emit_ty]. f_equal.
  unfold overwritten in Ho. apply orb_true_iff in Ho.
  destruct (memb id (sources fs)) eqn:Es.
  - destruct (wctx_intro _ _ Hw Ht Hv') as [Hx' _].
    rewrite <- is_derived_sources in Es. apply (x_derived _ _ Hx' c) in Es as Ec.
    destruct (claims c id fs (vpre ++ v' :: vpost)) as [|z l]; [congruence|].
    destruct (wctx_intro _ _ Hw Ht Hv) as [Hx _].
    destruct (at_facts fs _ pre id _ k v Hw Ht Hv Hat) as
      (? & ? & ? & _ & _ & _ & _ & _ & _ & _ & _ & _ & _ & _ & _ & _ & _ & _ & _ & Hlk).
    destruct (x_scalar _ _ Hx id) as (s & m & Hl'); [rewrite Es; auto|].
    rewrite Hlk in Hl'. injection Hl' as -> ->. auto.
  - destruct Ho as [Ho|Ho]; [discriminate|].
    rewrite (claims_sources c id fs _ Es). cbn [hd_error slot].
    destruct (pinned ct k) as [w|]; [|discriminate]. destruct ct; auto.
Qed.

Lemma refused_bytes c pre id t k post vpre v v' vpost out out' :
  let fs := f_app pre (FCons id t k post) in
  wf fs = true -> typed fs = true -> length vpre = f_len pre ->
  has_fields fs (vpre ++ v :: vpost) -> has_fields fs (vpre ++ v' :: vpost) ->
  overwritten fs id t k = true ->
  wmem (stream_cast c fs (vpre ++ v :: vpost)) = (Ok tt, out) ->
  wmem (stream_cast c fs (vpre ++ v' :: vpost)) = (Ok tt, out') -> out = out'.
Proof.
  intros fs Hw Ht HL Hv Hv' Ho Hok Hok'.
  rewrite (write_encodes _ _ _ _ Hw Ht Hv Hok), (write_encodes _ _ _ _ Hw Ht Hv' Hok').
  f_equal. apply refused_ignored; auto.
Qed.

(** ** Options *)

Lemma count_perm p o o' : Permutation o o' -> count p o = count p o'.
Proof.
  intros H. induction H; simpl; auto; try congruence.
  - rewrite IHPermutation. auto.
  - destruct (p x), (p y); auto.
Qed.

Lemma only_perm p o o' : Permutation o o' -> only p o = only p o'.
Proof.
  intros H. unfold only. induction H; simpl; auto; try congruence.
  destruct (p x), (p y); auto.
Qed.

Lemma count_cons p x o : count p (x :: o) = ((if p x then 1 else 0) + count p o)%nat.
Proof. simpl. destruct (p x); auto. Qed.

Lemma size_none sz o : count is_size o = 0%nat -> size_in_pack sz o = SzBytes sz.
Proof. induction o as [|[]]; simpl; auto; discriminate. Qed.

Lemma size_perm sz o o' : Permutation o o' -> (count is_size o <= 1)%nat ->
  size_in_pack sz o = size_in_pack sz o'.
Proof.
  intros H. induction H; intros HC; auto.
  - destruct x; simpl in *; auto.
  - destruct x, y; simpl in *; auto; lia.
  - rewrite IHPermutation1 by auto. apply IHPermutation2. rewrite <- (count_perm _ _ _ H). auto.
Qed.

Lemma constr_perm o o' : Permutation o o' -> (count is_constr o <= 1)%nat ->
  constr_in_pack o = constr_in_pack o'.
Proof.
  intros H. induction H; intros HC; auto.
  - destruct x; simpl in *; auto.
  - destruct x, y; simpl in *; auto; lia.
  - rewrite IHPermutation1 by auto. apply IHPermutation2. rewrite <- (count_perm _ _ _ H). auto.
Qed.

Lemma bound_perm o o' : Permutation o o' -> (count is_bound o <= 1)%nat ->
  bound_in_pack o = bound_in_pack o'.
Proof.
  intros H. induction H; intros HC; auto.
  - destruct x; simpl in *; auto.
  - destruct x, y; simpl in *; auto; lia.
  - rewrite IHPermutation1 by auto. apply IHPermutation2. rewrite <- (count_perm _ _ _ H). auto.
Qed.

Lemma describe_perm d o o' : Permutation o o' -> describe d o = describe d o'.
Proof.
  intros H. unfold describe.
  assert (pack_ok o = pack_ok o') as EP by (unfold pack_ok; rewrite !(count_perm _ _ _ H); auto).
  rewrite <- EP. destruct (pack_ok o) eqn:E; auto. cbn [negb].
  unfold pack_ok in E. rewrite !andb_true_iff in E. destruct E as ((E1 & E2) & E3).
  apply Nat.leb_le in E1. apply Nat.leb_le in E2. apply Nat.leb_le in E3.
  rewrite <- (constr_perm _ _ H E2), <- (bound_perm _ _ H E3).
  destruct d; rewrite <- ?(only_perm _ _ _ H), <- ?(size_perm _ _ _ H E1); auto.
Qed.

Lemma count_app p a b : count p (a ++ b) = (count p a + count p b)%nat.
Proof. induction a as [|x a IH]; simpl; auto. destruct (p x); simpl; rewrite IH; auto. Qed.

Lemma describe_twice d p x y a b c : (p = is_size \/ p = is_constr \/ p = is_bound) ->
  p x = true -> p y = true -> describe d (a ++ x :: b ++ y :: c) = None.
Proof.
  intros Hp Hx Hy. unfold describe.
  assert ((2 <= count p (a ++ x :: b ++ y :: c))%nat) as HC.
  { rewrite count_app, count_cons, count_app, count_cons, Hx, Hy. lia. }
  assert (pack_ok (a ++ x :: b ++ y :: c) = false) as ->; auto.
  unfold pack_ok. destruct Hp as [ -> |[ -> | -> ]]; apply Bool.not_true_iff_false;
    rewrite !andb_true_iff, !Nat.leb_le; lia.
Qed.

(** ** A declared bound and the default *)

Definition peq {E A} (p q : rprog E A) : Prop := forall S alloc s, rrun S alloc p s = rrun S alloc q s.

Lemma peq_refl {E A} (p : rprog E A) : peq p p.
Proof. intros S alloc s. auto. Qed.

Lemma peq_bind {E A B} (p q : rprog E A) (f g : A -> rprog E B) : peq p q -> (forall a, peq (f a) (g a)) ->
  peq (rbind p f) (rbind q g).
Proof.
  intros H Hf S alloc s. rewrite !rrun_bind, H. destruct (rrun S alloc q s) as [[o s1] ev]; destruct o; auto.
  rewrite Hf. auto.
Qed.

Lemma peq_maperr {E E' A} (h : E -> E') (p q : rprog E A) : peq p q -> peq (rmaperr h p) (rmaperr h q).
Proof. intros H S alloc s. rewrite !rrun_maperr, H. auto. Qed.

Lemma peq_rep {E A} n (p q : rprog E A) : peq p q -> peq (rrep n p) (rrep n q).
Proof.
  intros H. induction n; simpl; [apply peq_refl|]. apply peq_bind; auto. intros a.
  apply peq_bind; auto. intros; apply peq_refl.
Qed.

Lemma peq_alloc {E A} n (p q : rprog E A) : peq p q -> peq (RAlloc n p) (RAlloc n q).
Proof. intros H S alloc s. simpl. rewrite H. auto. Qed.

Section Default.
Variables c c' : cfg.
Hypothesis Ehost : c_host c = c_host c'.
Hypothesis Ewire : c_wire c = c_wire c'.
Hypothesis Ecx : c_cx c = c_cx c'.
Hypothesis Eszw : c_szw c = c_szw c'.

Lemma load_default t : forall mem, load c t mem = load c' t mem.
Proof.
  induction t as [s|n t IH|n|w]; intros mem; simpl; auto.
  - unfold load_bits, is_host_order. rewrite Ehost, Ewire. auto.
  - rewrite (map_ext _ _ IH). auto.
  - unfold load_bits, is_host_order. rewrite Ehost, Ewire. auto.
Qed.

Lemma fixed_default t n : peq (read_fixed c t n) (read_fixed c' t n).
Proof.
  unfold read_fixed. destruct (Nat.ltb _ _); [apply peq_refl|]. intros S alloc s. simpl.
  destruct (i_read S s _) as [[bs|] s1]; auto. rewrite load_default. auto.
Qed.

Lemma deduce_default e l : deduce_len c e l = deduce_len c' e l.
Proof. unfold deduce_len, to_size. rewrite Eszw. auto. Qed.

Lemma ceiling_default b : b <> None -> ceiling c b = ceiling c' b.
Proof. destruct b; [|congruence]. unfold ceiling, to_size. rewrite Eszw. auto. Qed.

Lemma var_default elt len b : b <> None -> peq (read_var c elt len b) (read_var c' elt len b).
Proof.
  intros Hb. unfold read_var. rewrite (ceiling_default b Hb).
  destruct (len_allowed _ _ _); [|apply peq_refl]. apply peq_alloc. apply peq_bind.
  - unfold read_raw, to_size. rewrite Ecx, Eszw. apply peq_refl.
  - intros mem. rewrite (map_ext _ _ (load_default elt)). apply peq_refl.
Qed.

Lemma read_default :
  (forall t e, Forall (fun x => snd x <> None) (containers t) -> peq (read_ty c e t) (read_ty c' e t)) /\
  (forall fs e, Forall (fun x => snd x <> None) (containers_fields fs) ->
     peq (read_fields c e fs) (read_fields c' e fs)) /\
  (forall al e i, Forall (fun x => snd x <> None) (containers_alts al) ->
     peq (read_alts c e al i) (read_alts c' e al i)).
Proof.
  apply schema_mutind; cbn [containers containers_fields containers_alts read_ty read_fields read_alts].
  - intros t n e _. apply fixed_default.
  - intros elt l b e H. inversion H; subst. rewrite deduce_default. destruct (deduce_len c' e l).
    + apply var_default. auto.
    + apply peq_refl.
  - intros fs IH e H. apply peq_bind; [apply peq_maperr; auto|intros; apply peq_refl].
  - intros n fs IH e H. apply peq_bind; [|intros; apply peq_refl].
    apply peq_rep. apply peq_bind; [apply peq_maperr; auto|intros; apply peq_refl].
  - intros fs IH r l b e H. inversion H as [|? ? H1 H2]; subst. simpl in H1. rewrite deduce_default.
    rewrite (ceiling_default b H1). destruct (deduce_len c' e l); [|apply peq_refl].
    destruct (len_allowed _ _ _); [|apply peq_refl]. apply peq_alloc. apply peq_bind; [|intros; apply peq_refl].
    apply peq_rep. apply peq_bind; [apply peq_maperr; auto|intros; apply peq_refl].
  - intros b IH p ids e H. destruct (lookups e ids) as [vs|]; [|apply peq_refl].
    destruct (p vs); [|apply peq_refl]. apply peq_bind; [auto|intros; apply peq_refl].
  - intros g al IH e H. destruct (deduce_type e g) as [[i|]|]; try apply peq_refl.
    apply peq_bind; [auto|intros; apply peq_refl].
  - intros e _. apply peq_refl.
  - intros id t IH k fs IHf e H. apply Forall_app in H. destruct H.
    apply peq_bind; [apply peq_maperr, peq_bind; [auto|intros; apply peq_refl]|].
    intros v. apply peq_bind; [auto|intros; apply peq_refl].
  - intros e i _. apply peq_refl.
  - intros t IH k al IHa e [|i] H; apply Forall_app in H; destruct H; auto.
    apply peq_bind; [auto|intros; apply peq_refl].
Qed.
End Default.

Lemma cast_default c c' fs : same_but_default c c' ->
  Forall (fun x => snd x <> None) (containers_fields fs) ->
  forall S alloc s, rrun S alloc (struct_cast c fs) s = rrun S alloc (struct_cast c' fs) s.
Proof.
  intros (E1 & E2 & E3 & E4) H S alloc s.
  exact (proj1 (proj2 (read_default c c' E1 E2 E3 E4)) fs (mk_env fs (default_fields fs)) H S alloc s).
Qed.

(** ** Type ids *)

Lemma gen_more szw tk f : forall f' l r i, gen szw tk f l r = Some i -> (f <= f')%nat ->
  gen szw tk f' l r = Some i.
Proof.
  induction f as [|f IH]; intros f' l r i H HL; [discriminate|].
  destruct f' as [|f']; [lia|]. cbn [gen] in *. destruct (r <=? l); auto.
  destruct (tk _); apply IH; auto; lia.
Qed.

Section Gen.
Variables (szw : nat) (tk : Z -> bool) (n : Z).
Hypothesis Hs : (0 < szw)%nat.
Hypothesis Hn : 0 <= n.
Hypothesis Htk : forall i, 0 <= i -> tk i = (i <? n).

Lemma gen_pos f : 1 <= n -> forall l r, 0 <= l <= n -> n <= r + 1 -> r < pow256 szw ->
  r - l <= Z.of_nat f -> gen szw tk (S f) l r = Some n.
Proof.
  intros H1. induction f as [|f IH]; intros l r Hl Hr HR HF.
  - simpl. replace (r <=? l) with true by lia. rewrite Htk by lia.
    destruct (Z.ltb_spec l n); f_equal; lia.
  - remember (S f) as f' eqn:Ef. cbn [gen]. destruct (Z.leb_spec r l).
    + rewrite Htk by lia. destruct (Z.ltb_spec l n); f_equal; lia.
    + assert (0 <= (r - l) / 2 < r - l) as Hm.
      { split; [apply Z.div_pos; lia|apply Z.div_lt; lia]. }
      rewrite Htk by lia. subst f'. destruct (Z.ltb_spec (l + (r - l) / 2) n).
      * apply IH; lia.
      * rewrite Z.mod_small by lia. apply IH; lia.
Qed.

(** The empty registry: after at most one wraparound the search ends at 0. *)

Lemma gen_down k : n = 0 -> Z.of_nat k <= 8 * Z.of_nat szw -> (1 <= k)%nat ->
  exists f, gen szw tk f 0 (2 ^ Z.of_nat k - 2) = Some 0.
Proof.
  intros H0 Hk H1. induction k as [|k IH]; [lia|].
  destruct k as [|k].
  - exists 1%nat. simpl. rewrite Htk by lia. subst n. auto.
  - destruct IH as (f & Hf); [lia|lia|]. exists (S f). cbn [gen].
    assert (2 ^ Z.of_nat (S (S k)) = 2 * 2 ^ Z.of_nat (S k)) as E2.
    { replace (Z.of_nat (S (S k))) with (Z.of_nat (S k) + 1) by lia. rewrite Z.pow_add_r by lia. lia. }
    assert (2 <= 2 ^ Z.of_nat (S k)) as HP.
    { change 2 with (2 ^ 1) at 1. apply Z.pow_le_mono_r; lia. }
    destruct (Z.leb_spec (2 ^ Z.of_nat (S (S k)) - 2) 0); [lia|].
    rewrite Z.sub_0_r, Z.add_0_l.
    replace (2 ^ Z.of_nat (S (S k)) - 2) with ((2 ^ Z.of_nat (S k) - 1) * 2) by lia.
    rewrite Z.div_mul by lia. rewrite Htk by lia. subst n.
    replace (2 ^ Z.of_nat (S k) - 1 <? 0) with false by lia.
    rewrite Z.mod_small; [replace (2 ^ Z.of_nat (S k) - 1 - 1) with (2 ^ Z.of_nat (S k) - 2) by lia; auto|].
    split; [lia|]. unfold pow256. change 256 with (2 ^ 8). rewrite <- Z.pow_mul_r by lia.
    assert (2 ^ Z.of_nat (S k) <= 2 ^ (8 * Z.of_nat szw)) by (apply Z.pow_le_mono_r; lia). lia.
Qed.

Lemma gen_wrap : n = 0 -> exists f, gen szw tk f 0 1 = Some 0.
Proof.
  intros H0. destruct (gen_down (8 * szw - 1)) as (f & Hf); auto; [lia|lia|].
  exists (S (S f)). cbn [gen]. change (0 + (1 - 0) / 2) with 0. change (1 <=? 0) with false.
  cbv iota. rewrite Htk by lia. replace (0 <? n) with false by lia.
  assert (pow256 szw = 2 * 2 ^ Z.of_nat (8 * szw - 1)) as EP.
  { unfold pow256. change 256 with (2 ^ 8). rewrite <- Z.pow_mul_r by lia.
    replace (8 * Z.of_nat szw) with (Z.of_nat (8 * szw - 1) + 1) by lia. rewrite Z.pow_add_r by lia. lia. }
  assert (2 <= 2 ^ Z.of_nat (8 * szw - 1)) as HP.
  { change 2 with (2 ^ 1) at 1. apply Z.pow_le_mono_r; lia. }
  replace ((0 - 1) mod pow256 szw) with (pow256 szw - 1).
  2: { symmetry. rewrite <- (Z.mod_small (pow256 szw - 1) (pow256 szw)) by lia.
       replace (pow256 szw - 1) with (0 - 1 + 1 * pow256 szw) by lia. rewrite Z.mod_add by lia. auto. }
  destruct (Z.leb_spec (pow256 szw - 1) 0); [lia|]. rewrite Z.sub_0_r, Z.add_0_l.
  replace ((pow256 szw - 1) / 2) with (2 ^ Z.of_nat (8 * szw - 1) - 1).
  2: { apply Z.div_unique with 1; lia. }
  rewrite Htk by lia. replace (2 ^ Z.of_nat (8 * szw - 1) - 1 <? n) with false by lia.
  rewrite Z.mod_small by lia.
  replace (2 ^ Z.of_nat (8 * szw - 1) - 1 - 1) with (2 ^ Z.of_nat (8 * szw - 1) - 2) by lia. auto.
Qed.

Lemma gen_zero r : n = 0 -> 0 <= r < pow256 szw -> exists f, gen szw tk f 0 r = Some 0.
Proof.
  intros H0 (Hr & HR). revert HR. pattern r. apply Zlt_0_ind; auto. clear r Hr. intros r IH Hr HR.
  destruct (Z.eq_dec r 0) as [->|N0].
  - exists 1%nat. simpl. rewrite Htk by lia. subst n. auto.
  - destruct (Z.eq_dec r 1) as [->|N1]; [apply gen_wrap; auto|].
    assert (1 <= r / 2 < r) as Hm.
    { split; [apply Z.div_le_lower_bound; lia|apply Z.div_lt; lia]. }
    destruct (IH (r / 2 - 1)) as (f & Hf); [lia|lia|]. exists (S f). cbn [gen].
    destruct (Z.leb_spec r 0); [lia|]. rewrite Z.sub_0_r, Z.add_0_l. rewrite Htk by lia.
    replace (r / 2 <? n) with false by lia. rewrite Z.mod_small by lia. auto.
Qed.

Lemma gen_next r : 0 <= r < pow256 szw -> n <= r + 1 -> exists f, gen szw tk f 0 r = Some n.
Proof.
  intros Hr H. destruct (Z.eq_dec n 0) as [E|NE].
  - destruct (gen_zero r E Hr) as (f & Hf). exists f. congruence.
  - exists (S (Z.to_nat r)). apply gen_pos; lia.
Qed.

(** Beyond the capacity the last id is handed out again. *)
Lemma gen_full f : forall l r, 0 <= l <= r -> r + 1 <= n ->
  r - l <= Z.of_nat f -> gen szw tk (S f) l r = Some (r + 1).
Proof.
  induction f as [|f IH]; intros l r Hl Hr HF.
  - simpl. replace (r <=? l) with true by lia. rewrite Htk by lia.
    destruct (Z.ltb_spec l n); f_equal; lia.
  - remember (S f) as f' eqn:Ef. cbn [gen]. destruct (Z.leb_spec r l).
    + rewrite Htk by lia. destruct (Z.ltb_spec l n); f_equal; lia.
    + assert (0 <= (r - l) / 2 < r - l) as Hm.
      { split; [apply Z.div_pos; lia|apply Z.div_lt; lia]. }
      rewrite Htk by lia. subst f'. destruct (Z.ltb_spec (l + (r - l) / 2) n); [|lia]. apply IH; lia.
Qed.
End Gen.

Lemma gen_search szw tk n r : (0 < szw)%nat -> 0 <= r < 256 ^ Z.of_nat szw -> 0 <= n <= r + 1 ->
  (forall i, 0 <= i -> (tk i = true <-> i < n)) ->
  exists F, forall fuel, (F <= fuel)%nat -> gen szw tk fuel 0 r = Some n.
Proof.
  intros Hs Hr Hn Htk. destruct (gen_next szw tk n Hs (proj1 Hn)) with (r := r) as (F & HF); auto; [|lia|].
  - intros i Hi. apply Bool.eq_iff_eq_true. rewrite Htk by auto. lia.
  - exists F. intros fuel HL. eapply gen_more; eauto.
Qed.

Definition upto (n : nat) : list Z := map Z.of_nat (seq 0 n).

Lemma upto_taken n i : 0 <= i -> existsb (Z.eqb i) (upto n) = (i <? Z.of_nat n).
Proof.
  intros Hi. apply Bool.eq_iff_eq_true. rewrite existsb_exists, Z.ltb_lt. unfold upto. split.
  - intros (x & Hx & E). apply in_map_iff in Hx. destruct Hx as (j & <- & Hj). apply in_seq in Hj. lia.
  - intros H. exists i. split; [|lia]. apply in_map_iff. exists (Z.to_nat i). split; [lia|].
    apply in_seq. lia.
Qed.

Lemma upto_snoc n : upto n ++ [Z.of_nat n] = upto (S n).
Proof. unfold upto. rewrite seq_S, map_app. auto. Qed.

Lemma szw_big szw : (2 <= szw)%nat -> 1023 < pow256 szw.
Proof.
  intros H. unfold pow256. apply Z.lt_le_trans with (256 ^ 2); [reflexivity|]. apply Z.pow_le_mono_r; lia.
Qed.

Lemma gen_at szw j : (2 <= szw)%nat -> (j <= 1024)%nat ->
  exists f, gen szw (fun i => existsb (Z.eqb i) (upto j)) f 0 max_type_id = Some (Z.of_nat j).
Proof.
  intros Hs Hj. pose proof (szw_big szw Hs). apply gen_next; try lia.
  - intros i Hi. apply upto_taken. auto.
  - unfold max_type_id. lia.
  - unfold max_type_id. lia.
Qed.

(** Enough recursion for every fill level. *)
Lemma gen_fuel szw : (2 <= szw)%nat -> exists F, forall fuel j, (F <= fuel)%nat -> (j <= 1024)%nat ->
  gen szw (fun i => existsb (Z.eqb i) (upto j)) fuel 0 max_type_id = Some (Z.of_nat j).
Proof.
  intros Hs.
  assert (forall m, (m <= 1025)%nat -> exists F, forall fuel j, (F <= fuel)%nat -> (j < m)%nat ->
    gen szw (fun i => existsb (Z.eqb i) (upto j)) fuel 0 max_type_id = Some (Z.of_nat j)) as H.
  { induction m as [|m IH]; intros Hm; [exists 0%nat; intros; lia|].
    destruct IH as (F & HF); [lia|]. destruct (gen_at szw m Hs) as (f & Hf); [lia|].
    exists (Nat.max F f). intros fuel j Hfu Hj. destruct (Nat.eq_dec j m) as [->|NE].
    - eapply gen_more; eauto. lia.
    - apply HF; lia. }
  destruct (H 1025%nat) as (F & HF); [lia|]. exists F. intros. apply HF; lia.
Qed.

Lemma ids_from szw F : (2 <= szw)%nat -> (forall fuel j, (F <= fuel)%nat -> (j <= 1024)%nat ->
    gen szw (fun i => existsb (Z.eqb i) (upto j)) fuel 0 max_type_id = Some (Z.of_nat j)) ->
  forall fuel k j, (F <= fuel)%nat -> (j + k <= 1025)%nat ->
  type_ids szw fuel (upto j) k = Some (upto (j + k)).
Proof.
  intros Hs HF fuel k. induction k as [|k IH]; intros j Hfu Hj; simpl.
  - rewrite Nat.add_0_r. auto.
  - rewrite HF by lia. rewrite upto_taken by lia.
    replace (Z.of_nat j <? Z.of_nat j) with false by lia. rewrite upto_snoc, IH by lia.
    rewrite Nat.add_succ_r. auto.
Qed.

Lemma ids_sequence szw : (2 <= szw)%nat -> exists F, forall fuel k, (F <= fuel)%nat -> (k <= 1025)%nat ->
  type_ids szw fuel [] k = Some (upto k).
Proof.
  intros Hs. destruct (gen_fuel szw Hs) as (F & HF). exists F. intros fuel k Hfu Hk.
  apply (ids_from szw F Hs HF fuel k 0); auto.
Qed.

Lemma type_ids_prefix szw fuel k : forall used m r, type_ids szw fuel used (k + m) = Some r ->
  exists u, type_ids szw fuel used k = Some u /\ type_ids szw fuel u m = Some r.
Proof.
  induction k as [|k IH]; intros used m r H; simpl in *; [eauto|].
  destruct (gen _ _ _ _ _) as [i|]; [|discriminate]. destruct (existsb (Z.eqb i) used); [discriminate|]. eauto.
Qed.

Lemma ids_overflow szw fuel k : (2 <= szw)%nat -> (1026 <= k)%nat -> (1024 <= fuel)%nat ->
  type_ids szw fuel [] k = None.
Proof.
  intros Hs Hk Hfu. destruct (type_ids szw fuel [] k) as [r|] eqn:E; auto. exfalso.
  replace k with (1025 + (k - 1025))%nat in E by lia.
  destruct (type_ids_prefix _ _ _ _ _ _ E) as (u & E1 & E2).
  destruct (ids_sequence szw Hs) as (F & HF).
  assert (u = upto 1025) as ->.
  { specialize (HF (Nat.max F fuel) 1025%nat ltac:(lia) ltac:(lia)).
    assert (forall f f' used m u, type_ids szw f used m = Some u -> (f <= f')%nat ->
              type_ids szw f' used m = Some u) as HM.
    { clear. intros f f' used m. revert used. induction m as [|m IH]; intros used u H HL; simpl in *; auto.
      destruct (gen szw _ f 0 max_type_id) as [i|] eqn:G; [|discriminate].
      rewrite (gen_more _ _ _ _ _ _ _ G HL). destruct (existsb _ used); [discriminate|]. auto. }
    apply (HM fuel (Nat.max F fuel)) in E1; [|lia]. congruence. }
  destruct (k - 1025)%nat as [|m] eqn:EK; [lia|].
  cbn [type_ids] in E2.
  rewrite (gen_more _ _ 1024 fuel 0 max_type_id 1024) in E2.
  - rewrite upto_taken in E2 by lia. replace (1024 <? Z.of_nat 1025) with true in E2 by lia. discriminate.
  - change 1024 with (max_type_id + 1). change 1024%nat with (S 1023).
    apply (gen_full szw _ (Z.of_nat 1025)); try (unfold max_type_id; lia).
    intros i Hi. apply upto_taken. exact Hi.
  - exact Hfu.
Qed.

(** ** Descriptors *)

Lemma describe_scalar s n k : (n <= ssize s)%nat ->
  describe (DBasic s) [] = Some (FFixed (TScalar s) (ssize s), CNone) /\
  describe (DBasic s) [OptSize (SzBytes n)] = Some (FFixed (TScalar s) n, CNone) /\
  describe (DBasic s) [OptConstr k] = Some (FFixed (TScalar s) (ssize s), k) /\
  describe (DBasic s) [OptSize (SzBytes n); OptConstr k] = Some (FFixed (TScalar s) n, k).
Proof.
  intros H. apply Nat.leb_le in H. unfold describe. simpl. rewrite H, Nat.leb_refl. auto.
Qed.

Lemma describe_container sz elt l k b :
  describe (DVec sz elt) [OptSize (SzLen l)] = Some (FVar elt l None, CNone) /\
  describe (DVec sz elt) [OptSize (SzLen l); OptBound None] = Some (FVar elt l None, CNone) /\
  describe (DVec sz elt) [OptSize (SzLen l); OptConstr k] = Some (FVar elt l None, k) /\
  describe (DVec sz elt) [OptSize (SzLen l); OptBound b] = Some (FVar elt l b, CNone) /\
  describe (DVec sz elt) [OptSize (SzLen l); OptConstr k; OptBound b] = Some (FVar elt l b, k).
Proof. unfold describe. simpl. auto 6. Qed.

Lemma only_in p opts o : In o opts -> p o = false -> only p opts = false.
Proof.
  intros H E. unfold only. apply Bool.not_true_iff_false. rewrite forallb_forall. intros K.
  rewrite (K _ H) in E. discriminate.
Qed.

Lemma size_in sz opts l : size_in_pack sz opts = SzLen l -> In (OptSize (SzLen l)) opts.
Proof.
  induction opts as [|o opts IH]; simpl; [discriminate|]. destruct o; auto. intros ->. auto.
Qed.

Lemma describe_rejected :
  (forall sz elt opts, (forall l, ~ In (OptSize (SzLen l)) opts) -> describe (DVec sz elt) opts = None) /\
  (forall d opts, In OptOther opts -> describe d opts = None) /\
  (forall n t opts s, In (OptSize s) opts -> describe (DArray n t) opts = None) /\
  (forall s opts b, In (OptBound b) opts -> describe (DBasic s) opts = None).
Proof.
  unfold describe. split; [|split; [|split]].
  - intros sz elt opts H. destruct (negb _); auto. destruct (only _ _); auto.
    destruct (size_in_pack sz opts) eqn:E; auto. apply size_in in E. exfalso. eapply H; eauto.
  - intros d opts H. destruct (negb _); auto. destruct d; rewrite (only_in _ _ _ H); auto.
  - intros n t opts s H. destruct (negb _); auto. rewrite (only_in _ _ _ H); auto.
  - intros s opts b H. destruct (negb _); auto. rewrite (only_in _ _ _ H); auto.
Qed.

Lemma sorts A (less : A -> A -> bool) :
  (forall x y z, less y x = false -> less z y = false -> less z x = false) ->
  (forall x y, less x y = true -> less y x = false) ->
  forall l, Permutation (sort_ranges less l) l /\
    ascending (fun x y => less y x = false) (sort_ranges less l).
Proof.
  intros H1 H2 l. split; [apply sort_perm|].
  apply (sort_ascending less H1); auto.
Qed.

Lemma accepted_progress szw fs :
  accepted szw fs = true -> sizes_fields fs = true -> typed fs = true ->
  (forall gs, In gs (lists fs) -> named gs) ->
  (forall gs id t k, In gs (lists fs) -> In (id, t, k) (f_list gs) -> ~ In id (uses t)) ->
  (forall c S alloc s o s' ev, delivers S ->
     rrun S alloc (struct_cast c fs) s = (o, s', ev) -> o <> Stuck) /\
  (forall c S vs s o s' ch, has_fields fs vs ->
     wrun S (stream_cast c fs vs) s = (o, s', ch) -> o <> Stuck).
Proof.
  intros HA HS HT HN HU. pose proof (accepted_wf szw fs HA HS HN HU) as HW. split.
  - intros c S alloc s o s' ev HD H. eapply struct_cast_not_stuck; eauto.
  - intros c S vs s o s' ch HV H.
    destruct (write_total c S fs vs s o s' ch HW HT HV H) as [ -> |[(r & id & -> & _)|( -> & _)]]; discriminate.
Qed.
