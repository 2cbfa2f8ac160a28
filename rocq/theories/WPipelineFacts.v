(** * The writer statement by statement: proofs *)
From Coq Require Import ZifyBool ZifyNat Lia.
From Verif Require Import WPipeline BytesFacts ProgFacts ReadFacts ReadMore Safety Typing WriteFacts WriteLoc.
Import ListNotations.
Local Open Scope Z_scope.

Definition den {E} (o : outcome E unit) : done (wresult E) :=
  match o with
  | Ok _ => Did (None, tt)
  | Err e => Did (Some e, tt)
  | UB => DoesUB
  | Stuck => DoesNotCompile
  | Throw => Throws
  end.

Section Sim.
Variable S : ostream.
Variable c : cfg.

Definition wsim {E} (p : wprog E unit) (a : wact S (wresult E)) : Prop :=
  forall s, a s = match wrun S p s with (o, s', ev) => (den o, s', ev) end.

Lemma wsim_ret E : wsim (E := E) (WRet tt) (aret (None, tt)).
Proof. intros s. reflexivity. Qed.

Lemma wsim_err {E} (e : E) : wsim (WErr e) (aret (Some e, tt)).
Proof. intros s. reflexivity. Qed.

Lemma wsim_stuck E : wsim (E := E) WStuck (astop DoesNotCompile).
Proof. intros s. reflexivity. Qed.

Lemma wsim_bind {E E'} (m : E -> E') (p : wprog E unit) (a : wact S (wresult E)) (f : unit -> wprog E' unit)
  (k : wresult E -> wact S (wresult E')) : wsim p a ->
  (forall e s, k (Some e, tt) s = (Did (Some (m e), tt), s, [])) -> wsim (f tt) (k (None, tt)) ->
  wsim (wbind (wmaperr m p) f) (abind a k).
Proof.
  intros Hp He Hk s. unfold abind. rewrite Hp, wrun_bind, wrun_maperr.
  destruct (wrun S p s) as [[[[]|e| | |] s1] ev1]; cbn [den]; auto.
  - rewrite Hk. destruct (wrun S (f tt) s1) as [[o s2] ev2]. auto.
  - rewrite He, app_nil_r. auto.
Qed.

Lemma wsim_then {E} (p : wprog E unit) (a : wact S (wresult E)) (f : unit -> wprog E unit)
  (k : wresult E -> wact S (wresult E)) : wsim p a ->
  (forall e s, k (Some e, tt) s = (Did (Some e, tt), s, [])) -> wsim (f tt) (k (None, tt)) ->
  wsim (wbind p f) (abind a k).
Proof.
  intros Hp He Hk s. unfold abind. rewrite Hp, wrun_bind.
  destruct (wrun S p s) as [[[[]|e| | |] s1] ev1]; cbn [den]; auto.
  - rewrite Hk. destruct (wrun S (f tt) s1) as [[o s2] ev2]. auto.
  - rewrite He, app_nil_r. auto.
Qed.

Lemma wsim_map {E E'} (m : E -> E') (p : wprog E unit) (a : wact S (wresult E))
  (k : wresult E -> wact S (wresult E')) : wsim p a ->
  (forall e s, k (Some e, tt) s = (Did (Some (m e), tt), s, [])) ->
  (forall s, k (None, tt) s = (Did (None, tt), s, [])) ->
  wsim (wmaperr m p) (abind a k).
Proof.
  intros Hp He Hk s. unfold abind. rewrite Hp, wrun_maperr.
  destruct (wrun S p s) as [[[[]|e| | |] s1] ev1]; cbn [den]; rewrite ?He, ?Hk, ?app_nil_r; auto.
Qed.

Lemma wsim_check k v (p : wprog reason unit) (a : wact S (wresult reason)) : wsim p a ->
  wsim (wbind (wcheck k v) (fun _ => p))
       (checked k v (fun ok => if negb ok then aret (res_err ValidationFailure) else a)).
Proof.
  intros H. unfold wcheck, checked. destruct (check k v); cbn [wbind negb].
  - exact H.
  - apply wsim_err.
  - intros s. reflexivity.
  - intros s. reflexivity.
Qed.

Lemma wsim_each {E A} (F : A -> wprog E unit) (body : A -> wact S (wresult E)) : forall l,
  (forall x, In x l -> wsim (F x) (body x)) -> wsim (wfor l F) (for_each S l body).
Proof.
  induction l; intros H; cbn [wfor for_each].
  - apply wsim_ret.
  - apply wsim_then.
    + apply H. left. auto.
    + reflexivity.
    + apply IHl. intros x Hx. apply H. right. auto.
Qed.

Lemma wfor_app {E A} (f : A -> wprog E unit) : forall a b s,
  wrun S (wfor (a ++ b) f) s = wrun S (wbind (wfor a f) (fun _ => wfor b f)) s.
Proof.
  induction a; intros b s; cbn [wfor app wbind]; auto.
  rewrite !wrun_bind. destruct (wrun S (f a) s) as [[[[]|e| | |] s1] ev1]; auto.
  rewrite IHa, wrun_bind. destruct (wrun S (wfor a0 f) s1) as [[[[]|e| | |] s2] ev2]; auto.
  destruct (wrun S (wfor b f) s2) as [[o s3] ev3]. rewrite app_assoc. auto.
Qed.

Lemma wfor_concat {E A} (f : A -> wprog E unit) : forall l s,
  wrun S (wfor (concat l) f) s = wrun S (wfor l (fun x => wfor x f)) s.
Proof.
  induction l; intros s; cbn [concat wfor]; auto.
  rewrite wfor_app, !wrun_bind. destruct (wrun S (wfor a f) s) as [[[[]|e| | |] s1] ev1]; auto.
  rewrite IHl. auto.
Qed.

(** ** Objects *)

Lemma wsim_native mem n : wsim (put_prefix mem n) (write_native_impl S mem n).
Proof.
  unfold put_prefix, write_native_impl, put. destruct (Nat.ltb (length mem) n); intros s; [reflexivity|].
  simpl. destruct (o_write S s (firstn n mem)) as [[|] s']; reflexivity.
Qed.

Lemma wsim_put mem n : length mem = n -> wsim (put mem) (write_native_impl S mem n).
Proof.
  intros H. pose proof (wsim_native mem n) as W. unfold put_prefix in W.
  rewrite H, Nat.ltb_irrefl, <- H, firstn_all in W. rewrite H in W. exact W.
Qed.

Lemma mem_enc_length h w b : length (mem_enc h w b) = w.
Proof. unfold mem_enc. destruct h; rewrite ?rev_length, le_enc_length; auto. Qed.

Lemma store_length h t : forall v mem, store h t v = Some mem -> length mem = csize t.
Proof.
  induction t; intros v mem H; cbn [store] in H.
  - destruct v; inversion H. apply mem_enc_length.
  - destruct v; try discriminate. destruct (Nat.eqb_spec (length l) n); [|discriminate].
    destruct (sequence _) as [bss|] eqn:Es; inversion H; subst. simpl. clear H.
    revert bss Es. induction l; simpl; intros bss Es; [inversion Es; auto|].
    destruct (store h t a) eqn:Ea; [|discriminate]. destruct (sequence _) eqn:Eb; inversion Es.
    simpl. rewrite app_length. apply IHt in Ea. specialize (IHl _ eq_refl). lia.
  - destruct v; try discriminate. destruct (Nat.eqb_spec (length l) (Datatypes.S n)); [|discriminate].
    destruct (chars_of l) eqn:Ec; inversion H. rewrite map_length.
    apply chars_of_iff in Ec. subst. rewrite map_length in e. auto.
  - destruct v; try discriminate. destruct (Nat.eqb _ w); inversion H. apply mem_enc_length.
Qed.

Lemma rev_store_scalar h s z : rev (store_scalar h s z) = store_swapped h s z.
Proof.
  unfold store_scalar, store_swapped. rewrite mem_enc_byteswap. unfold mem_enc.
  destruct h; rewrite ?rev_involutive; auto.
Qed.

Lemma wsim_with t v n :
  wsim (match store (c_host c) t v with Some bs => put_prefix bs n | None => WStuck end)
       (with_bytes S c t v (fun mem => write_native_impl S mem n)).
Proof.
  unfold with_bytes. destruct (store (c_host c) t v); [apply wsim_native|apply wsim_stuck].
Qed.

Lemma wsim_elem t : forall v, ct_ok t v ->
  exists chs, foreign_chunks (c_host c) t v = Some chs /\
    wsim (wfor chs put) (write_foreign_elem S c t v).
Proof.
  assert (One : forall bs a, wsim (put bs) a -> wsim (wfor [bs] put) a).
  { intros bs a H s. rewrite H. cbn [wfor]. rewrite wrun_bind.
    destruct (wrun S (put bs) s) as [[[[]|e| | |] s1] ev1]; auto. simpl. rewrite app_nil_r. auto. }
  induction t; intros v Hv.
  - destruct v; simpl in Hv; try tauto. eexists; split; [reflexivity|]. apply One.
    cbn [write_foreign_elem]. change (csize (TScalar s)) with (ssize s).
    unfold write_foreign_scalar, with_bytes. cbn [store].
    destruct (Nat.ltb 1 (ssize s)).
    + rewrite rev_store_scalar. apply wsim_put. apply mem_enc_length.
    + apply wsim_put. apply mem_enc_length.
  - destruct v as [|l| | | | |]; simpl in Hv; try tauto. destruct Hv as [<- Hv].
    cbn [foreign_chunks write_foreign_elem]. rewrite Nat.eqb_refl.
    assert (exists chs, sequence (map (foreign_chunks (c_host c) t) l) = Some chs /\
              wsim (wfor chs (fun ch => wfor ch put)) (for_each S l (write_foreign_elem S c t)))
      as (chs & -> & H).
    { clear - IHt Hv. induction Hv as [|x l Hx Hv (chs & H1 & H2)]; simpl.
      - exists []. split; auto. apply wsim_ret.
      - destruct (IHt x Hx) as (ch & -> & Hc). rewrite H1. exists (ch :: chs). split; auto.
        cbn [wfor]. apply wsim_then; auto. }
    eexists; split; [reflexivity|]. intros s. rewrite wfor_concat. apply H.
  - destruct (store_str (c_host c) n v Hv) as [H1 _]. cbn [foreign_chunks write_foreign_elem].
    unfold with_bytes. rewrite H1. eexists; split; [reflexivity|]. apply One. apply wsim_put.
    eapply store_length. eauto.
  - destruct v; simpl in Hv; try tauto. destruct Hv as [-> _].
    cbn [foreign_chunks write_foreign_elem]. rewrite Nat.eqb_refl. eexists; split; [reflexivity|]. apply One.
    change (csize (TFloat w)) with w. unfold write_foreign_scalar, with_bytes. cbn [store].
    rewrite Nat.eqb_refl. destruct (Nat.ltb 1 w).
    + rewrite rev_store_scalar. apply wsim_put. apply mem_enc_length.
    + apply wsim_put. apply mem_enc_length.
Qed.

Lemma wsim_const t n v : (forall m t', t = TArr m t' -> ct_ok t v) ->
  wsim (write_const c t n v) (w_const S c t n v).
Proof.
  intros Ha. unfold write_const, w_const. destruct (is_host_order c); [apply wsim_with|].
  destruct t.
  - unfold write_foreign_scalar, with_bytes. destruct v; cbn [store]; try apply wsim_stuck.
    rewrite rev_store_scalar. apply wsim_native.
  - destruct (wsim_elem _ _ (Ha _ _ eq_refl)) as (chs & -> & H). exact H.
  - apply wsim_with.
  - unfold write_foreign_scalar, with_bytes. destruct v; cbn [store]; try apply wsim_stuck.
    destruct (Nat.eqb _ w); [|apply wsim_stuck].
    rewrite rev_store_scalar. apply wsim_native.
Qed.

Lemma store_some h t : forall v, ct_ok t v -> exists mem, store h t v = Some mem.
Proof.
  intros v Hv. set (c' := mkCfg h h false 8 0).
  assert (H : is_host_order c' = true) by (unfold c'; destruct h; reflexivity).
  exists (enc_ct h t v). apply (store_enc c' t H v Hv).
Qed.

Lemma sequence_store h elt l : Forall (ct_ok elt) l -> exists bss,
  sequence (map (store h elt) l) = Some bss /\ length (concat bss) = (length l * csize elt)%nat /\
  (forall E (f : list Z -> wprog E unit) body,
     (forall v mem, store h elt v = Some mem -> wsim (f mem) (body v)) ->
     wsim (wfor bss f) (for_each S l body)).
Proof.
  induction 1 as [|x l Hx Hl (bss & H1 & H2 & H3)]; simpl.
  - exists []. split; [auto|split; auto]. intros. apply wsim_ret.
  - destruct (store_some h elt x Hx) as [mem Hm]. rewrite Hm, H1. exists (mem :: bss).
    split; auto. split.
    + simpl. rewrite app_length, H2. apply store_length in Hm. lia.
    + intros E f body Hf. cbn [wfor]. apply wsim_then; auto.
Qed.

Lemma wsim_var elt l : Forall (ct_ok elt) l -> wsim (write_var c elt l) (w_var S c elt l).
Proof.
  intros Hl. unfold write_var, w_var. destruct (is_host_order c).
  - destruct (sequence_store (c_host c) elt l Hl) as (bss & -> & H2 & H3).
    destruct (c_cx c).
    + apply H3. intros v mem Hm. unfold with_bytes. rewrite Hm. apply wsim_put.
      eapply store_length; eauto.
    + apply wsim_put. auto.
  - assert (exists chs, sequence (map (foreign_chunks (c_host c) elt) l) = Some chs /\
              wsim (wfor chs (fun ch => wfor ch put)) (for_each S l (write_foreign_elem S c elt)))
      as (chs & -> & H).
    { induction Hl as [|x l Hx Hv (chs & H1 & H2)]; simpl.
      - exists []. split; auto. apply wsim_ret.
      - destruct (wsim_elem elt x Hx) as (ch & -> & Hc). rewrite H1. exists (ch :: chs). split; auto.
        cbn [wfor]. apply wsim_then; auto. }
    intros s. rewrite wfor_concat. apply H.
Qed.

Lemma wsim_verify fs vs id t n v : (forall m t', t = TArr m t' -> ct_ok t v) ->
  wsim (verify_then_write c fs vs id t n v) (w_verify S c fs vs id t n v).
Proof.
  intros Ha. pose proof (wsim_const t n v Ha) as H. unfold verify_then_write, w_verify.
  assert (K : forall s, abind (aret res_ok) (fun res : wresult reason =>
      match res with (Some e, _) => aret (res_err e) | (None, _) => w_const S c t n v end) s = w_const S c t n v s).
  { intros s. unfold abind, aret, res_ok. destruct (w_const S c t n v s) as [[d s'] ev]. reflexivity. }
  destruct (has_cond_obligation fs id).
  - destruct v; try apply wsim_stuck.
    destruct (verify_cond _ _ _ _ _) as [[|]|]; [|intros s; reflexivity|apply wsim_stuck].
    intros s. rewrite K. apply H.
  - intros s. rewrite K. apply H.
Qed.

(** ** Unfolding *)

Lemma w_FFixed fs vs id mem k v t' n : w_ty S c fs vs id mem k (FFixed t' n) v =
  w_fixed S c fs vs id mem k t' n v.
Proof. reflexivity. Qed.

Lemma w_FVar fs vs id mem k v elt l b_ : w_ty S c fs vs id mem k (FVar elt l b_) v =
  match v with
      | VSeq xs => w_len S c (mk_env fs vs) l (Z.of_nat (length xs)) (w_var S c elt xs)
      | _ => astop DoesNotCompile
      end.
Proof. reflexivity. Qed.

Lemma w_FStruct fs vs id mem k v gs : w_ty S c fs vs id mem k (FStruct gs) v =
  match v with
      | VRec ws =>
          abind (w_fold S c gs ws gs ws res_ok) (fun res =>
            match res with
            | (Some err, _) => aret (res_err (fst err))
            | (None, _) => aret res_ok
            end)
      | _ => astop DoesNotCompile
      end.
Proof. reflexivity. Qed.

Lemma w_FArrRec fs vs id mem k v n gs : w_ty S c fs vs id mem k (FArrRec n gs) v =
  match v with
      | VSeq xs =>
          for_loop n 0 (fun count _ =>
            match nth count xs VNone with
            | VRec ws =>
                abind (w_fold S c gs ws gs ws res_ok) (fun res =>
                  match res with
                  | (Some err, _) => aret (res_err (fst err))
                  | (None, _) => aret res_ok
                  end)
            | _ => astop DoesNotCompile
            end) tt
      | _ => astop DoesNotCompile
      end.
Proof. reflexivity. Qed.

Lemma w_FVecRec fs vs id mem k v gs r_ l b_ : w_ty S c fs vs id mem k (FVecRec gs r_ l b_) v =
  match v with
      | VSeq xs =>
          w_len S c (mk_env fs vs) l (Z.of_nat (length xs))
            (for_each S xs (fun record =>
               match record with
               | VRec ws =>
                   abind (w_fold S c gs ws gs ws res_ok) (fun res =>
                     match res with
                     | (Some err, _) => aret (res_err (fst err))
                     | (None, _) => aret res_ok
                     end)
               | _ => astop DoesNotCompile
               end))
      | _ => astop DoesNotCompile
      end.
Proof. reflexivity. Qed.

Lemma w_FMaybe fs vs id mem k v b p ids : w_ty S c fs vs id mem k (FMaybe b p ids) v =
  match lookups (mk_env fs vs) ids with
      | Some args =>
          let should_be_present := p args in
          let has_value := match v with VSome _ => true | _ => false end in
          if negb (Bool.eqb should_be_present has_value) then aret (res_err ValidationFailure)
          else if negb should_be_present then aret res_ok
          else match v with
               | VSome v' => w_ty S c fs vs id false CNone b v'
               | _ => astop DoesNotCompile
               end
      | None => astop DoesNotCompile
      end.
Proof. reflexivity. Qed.

Lemma w_FUnion fs vs id mem k v g al : w_ty S c fs vs id mem k (FUnion g al) v =
  match v with
      | VAlt i v' =>
          match g with
          | GField _ _ _ => w_alts S c fs vs id i v' al 0 res_ok
          | _ =>
              match deduce_type (mk_env fs vs) g with
              | Some None => aret (res_err TypeDeductionFailure)
              | Some (Some j) =>
                  if negb (Nat.eqb j i) then aret (res_err ValidationFailure)
                  else w_alts S c fs vs id i v' al 0 res_ok
              | None => astop DoesNotCompile
              end
          end
      | _ => astop DoesNotCompile
      end.
Proof. reflexivity. Qed.

Lemma w_fold_cons fs vs st id t k gs' w ws' : w_fold S c fs vs (FCons id t k gs') (w :: ws') st =
  abind (pipe st (fun _ =>
               abind (if is_derived fs id || is_frozen t k then aret true
                      else checked k w (fun ok => aret ok)) (fun ok =>
                 if negb ok then aret (res_err (ValidationFailure, id))
                 else abind (w_ty S c fs vs id true k t w) (fun write_res =>
                        match write_res with
                        | (Some err, _) => aret (res_err (err, id))
                        | (None, _) => aret res_ok
                        end))))
            (fun st' => w_fold S c fs vs gs' ws' st').
Proof. reflexivity. Qed.

Lemma w_alts_cons fs vs id i v idx st t k al' : w_alts S c fs vs id i v (ACons t k al') idx st =
  abind (pipe st (fun _ =>
               if negb (Nat.eqb i idx) then aret res_ok
               else checked k v (fun ok =>
                      if negb ok then aret (res_err ValidationFailure)
                      else w_ty S c fs vs id false k t v)))
            (fun st' => w_alts S c fs vs id i v al' (Datatypes.S idx) st').
Proof. reflexivity. Qed.

Lemma frozen_array t n k z : constr_ok (FFixed t n) k = true -> frozen_value (FFixed t n) k = Some z ->
  forall m t', t = TArr m t' -> ct_ok t z.
Proof.
  intros Hk Hf m t' ->. destruct k; simpl in *; try discriminate.
  destruct neg; inversion Hf; subst. exact (ct_okb_ok (TArr m t') z Hk).
Qed.

Lemma wsim_fixed fs vs id mem k t n v : ct_ok t v -> (mem = true -> constr_ok (FFixed t n) k = true) ->
  wsim (write_fixed c fs vs id mem k t n v) (w_fixed S c fs vs id mem k t n v).
Proof.
  intros Hv Hk. unfold write_fixed, w_fixed. destruct (is_derived fs id).
  - destruct (derive_value c fs vs id t n) as [d|r|] eqn:Ed; [|apply wsim_err|apply wsim_stuck].
    apply wsim_check. apply wsim_verify. intros m t' ->. simpl in Ed. discriminate.
  - unfold is_frozen. destruct mem; cbn [andb].
    + destruct (frozen_value (FFixed t n) k) as [z|] eqn:Ef.
      * apply wsim_verify. eapply frozen_array; eauto.
      * apply wsim_verify. auto.
    + apply wsim_verify. auto.
Qed.

Lemma wsim_len e l size p a : wsim p a ->
  wsim (wbind (verify_len c e l size) (fun _ => p)) (w_len S c e l size a).
Proof.
  intros H. unfold verify_len, w_len. destruct l; cbn [wbind]; auto.
  destruct (deduce_len c e (LenComp f ids)); [|apply wsim_stuck].
  destruct (z =? size); cbn [negb wbind]; [exact H|apply wsim_err].
Qed.

Lemma fold_bad fs vs e : forall gs ws s, has_fields gs ws ->
  w_fold S c fs vs gs ws (Some e, tt) s = (Did (Some e, tt), s, []).
Proof.
  induction gs; intros [|w ws] s H; try (simpl in H; tauto).
  rewrite w_fold_cons. cbn [pipe]. unfold abind at 1, aret at 1.
  rewrite IHgs; [reflexivity|]. simpl in H. tauto.
Qed.

Lemma alts_bad fs vs id i v e : forall al idx s,
  w_alts S c fs vs id i v al idx (Some e, tt) s = (Did (Some e, tt), s, []).
Proof.
  induction al; intros idx s; [reflexivity|].
  rewrite w_alts_cons. cbn [pipe]. unfold abind at 1, aret at 1. rewrite IHal. reflexivity.
Qed.

Lemma alts_past fs vs id i v : forall al idx s, (i < idx)%nat ->
  w_alts S c fs vs id i v al idx (None, tt) s = (Did (None, tt), s, []).
Proof.
  induction al; intros idx s H; [reflexivity|].
  rewrite w_alts_cons. cbn [pipe]. destruct (Nat.eqb_spec i idx); [lia|]. cbn [negb].
  unfold abind at 1, aret at 1, res_ok. rewrite IHal by lia. reflexivity.
Qed.

Lemma wsim_nth {E} (F : val -> wprog E unit) (body : nat -> unit -> wact S (wresult E)) xs :
  forall n j, (j + n = length xs)%nat ->
  (forall i, (i < length xs)%nat -> wsim (F (nth i xs VNone)) (body i tt)) ->
  wsim (wfor (skipn j xs) F) (for_loop n j body tt).
Proof.
  induction n; intros j Hj H.
  - rewrite skipn_all2 by lia. apply wsim_ret.
  - assert (Es : skipn j xs = nth j xs VNone :: skipn (Datatypes.S j) xs).
    { clear - Hj. revert j Hj. induction xs; intros [|j] Hj; simpl in *; try lia; auto. }
    rewrite Es. cbn [wfor for_loop]. apply wsim_then.
    + apply H. lia.
    + reflexivity.
    + apply IHn; [lia|auto].
Qed.

Lemma wsim_all :
  (forall t, forall G fs vs id mem k v, typed_ty G t = true -> has_ty t v ->
     (mem = true -> constr_ok t k = true) ->
     wsim (write_ty c fs vs id mem k t v) (w_ty S c fs vs id mem k t v)) /\
  (forall gs, forall G fs vs ws, typed_fields G gs = true -> has_fields gs ws ->
     wsim (write_fields c fs vs gs ws) (w_fold S c fs vs gs ws res_ok)) /\
  (forall al, forall G fs vs id i idx v, typed_alts G al = true -> has_alt al (i - idx) v ->
     (idx <= i)%nat ->
     wsim (write_alts c fs vs id al (i - idx) v) (w_alts S c fs vs id i v al idx res_ok)).
Proof.
  assert (Rec : forall gs, (forall G fs vs ws, typed_fields G gs = true -> has_fields gs ws ->
      wsim (write_fields c fs vs gs ws) (w_fold S c fs vs gs ws res_ok)) ->
    typed_fields [] gs = true -> forall x, match x with VRec ws => has_fields gs ws | _ => False end ->
    wsim (match x with VRec ws => wmaperr fst (write_fields c gs ws gs ws) | _ => WStuck end)
         (match x with
          | VRec ws =>
              abind (w_fold S c gs ws gs ws res_ok) (fun res =>
                match res with
                | (Some err, _) => aret (res_err (fst err))
                | (None, _) => aret res_ok
                end)
          | _ => astop DoesNotCompile
          end)).
  { intros gs H Ht x Hx. destruct x as [| |ws| | | |]; try tauto. apply wsim_map.
    - eapply H; eauto.
    - reflexivity.
    - reflexivity. }
  apply schema_mutind; intros.
  - apply wsim_fixed; auto.
  - rewrite w_FVar. cbn [write_ty typed_ty has_ty] in *. destruct v; try tauto.
    apply wsim_len. apply wsim_var. auto.
  - rewrite w_FStruct. cbn [write_ty typed_ty has_ty] in *. destruct v as [| |ws| | | |]; try tauto.
    exact (Rec fs H H0 (VRec ws) H1).
  - rewrite w_FArrRec. cbn [write_ty typed_ty has_ty] in *. destruct v as [|xs| | | | |]; try tauto.
    destruct H1 as [<- H1]. rewrite Nat.eqb_refl.
    apply (wsim_nth _ _ xs (length xs) 0); [lia|]. intros i Hi. apply (Rec fs H H0).
    rewrite Forall_forall in H1. apply H1. apply nth_In. auto.
  - rewrite w_FVecRec. cbn [write_ty typed_ty has_ty] in *. destruct v as [|xs| | | | |]; try tauto.
    apply andb_true_iff in H0. destruct H0 as [H0 _].
    apply wsim_len. apply wsim_each. intros x Hx. apply (Rec fs H H0).
    rewrite Forall_forall in H1. exact (H1 x Hx).
  - rewrite w_FMaybe. cbn [write_ty typed_ty] in *.
    apply andb_true_iff in H0. destruct H0 as [_ H0].
    destruct (lookups (mk_env fs vs) ids) as [args|]; [|apply wsim_stuck].
    destruct v as [| | | |v'| |]; try (simpl in H1; tauto); destruct (p args); cbn [Bool.eqb negb];
      try (apply wsim_err); try (apply wsim_ret).
    apply (H G); [exact H0|exact H1|discriminate].
  - rewrite w_FUnion. cbn [write_ty typed_ty has_ty] in *. destruct v as [| | | | |i v'|]; try tauto.
    apply andb_true_iff in H0. destruct H0 as [_ H0].
    assert (Ha : wsim (write_alts c fs vs id al i v') (w_alts S c fs vs id i v' al 0 res_ok)).
    { specialize (H G fs vs id i 0%nat v' H0). rewrite Nat.sub_0_r in H. apply H; auto. lia. }
    destruct g; auto.
    + destruct (deduce_type _ _) as [[j|]|]; [|apply wsim_err|apply wsim_stuck].
      destruct (Nat.eqb j i); cbn [negb]; [auto|apply wsim_err].
    + destruct (deduce_type _ _) as [[j|]|]; [|apply wsim_err|apply wsim_stuck].
      destruct (Nat.eqb j i); cbn [negb]; [auto|apply wsim_err].
  - simpl in H0. destruct ws; try tauto. apply wsim_ret.
  - rename c0 into k. simpl in H2. destruct ws as [|w ws]; try tauto. destruct H2 as [Hv Hvs].
    cbn [typed_fields] in H1. apply andb_true_iff in H1. destruct H1 as [H1 H1'].
    apply andb_true_iff in H1. destruct H1 as [H1 Hk].
    rewrite w_fold_cons. cbn [write_fields pipe res_ok]. cbv beta iota delta [res_ok].
    assert (Hw : wsim (wmaperr (fun r => (r, id)) (write_ty c fs0 vs id true k t w))
                   (abind (w_ty S c fs0 vs id true k t w) (fun write_res =>
                      match write_res with
                      | (Some err, _) => aret (res_err (err, id))
                      | (None, _) => aret res_ok
                      end))).
    { apply wsim_map; [|reflexivity|reflexivity]. eapply H; eauto. }
    apply wsim_then.
    + assert (K : forall {A B} (x : A) (f : A -> wact S B) s, abind (aret x) f s = f x s).
      { intros A B x f s. unfold abind, aret. destruct (f x s) as [[d s'] ev]. reflexivity. }
      destruct (is_derived fs0 id || is_frozen t k).
      * intros s. rewrite K. apply Hw.
      * unfold wcheck, checked. destruct (check k w); cbn [wbind].
        -- intros s. rewrite K. apply Hw.
        -- intros s. rewrite K. reflexivity.
        -- intros s. reflexivity.
        -- intros s. reflexivity.
    + intros e s. apply fold_bad. auto.
    + eapply H0; eauto.
  - simpl in H0. destruct (i - idx)%nat; tauto.
  - rename c0 into k. cbn [typed_alts] in H1. apply andb_true_iff in H1. destruct H1 as [H1 H1'].
    apply andb_true_iff in H1. destruct H1 as [H1 _]. apply andb_true_iff in H1. destruct H1 as [_ H1].
    rewrite w_alts_cons. cbv beta iota delta [res_ok pipe]. destruct (Nat.eqb_spec i idx) as [->|Hne]; cbn [negb].
    + rewrite Nat.sub_diag in *. cbn [write_alts has_alt] in *.
      assert (Hc : wsim (wbind (wcheck k v) (fun _ => write_ty c fs vs id false k t v))
                     (checked k v (fun ok => if negb ok then aret (res_err ValidationFailure)
                                             else w_ty S c fs vs id false k t v))).
      { apply wsim_check. eapply H; eauto. discriminate. }
      intros s. specialize (Hc s). unfold abind at 1. rewrite Hc.
      destruct (wrun S _ s) as [[[[]|e| | |] s1] ev1]; cbn [den]; auto.
      * rewrite alts_past by lia. rewrite app_nil_r. auto.
      * rewrite alts_bad. rewrite app_nil_r. auto.
    + replace (i - idx)%nat with (Datatypes.S (i - Datatypes.S idx)) in * by lia.
      cbn [write_alts has_alt] in *. intros s. unfold abind at 1, aret at 1.
      pose proof (H0 G fs vs id i (Datatypes.S idx) v H1' H2 ltac:(lia) s) as Hs. unfold res_ok in Hs.
      rewrite Hs.
      destruct (wrun S _ s) as [[o s1] ev1]. auto.
Qed.

Lemma literal_write fs vs s : typed fs = true -> has_fields fs vs ->
  w_cast S c fs vs s = wrun S (stream_cast c fs vs) s.
Proof.
  intros Ht Hv. unfold w_cast, stream_cast.
  rewrite (proj1 (proj2 wsim_all) fs [] fs vs vs Ht Hv s).
  destruct (wrun S _ s) as [[[[]|e| | |] s1] ev1]; reflexivity.
Qed.

End Sim.
