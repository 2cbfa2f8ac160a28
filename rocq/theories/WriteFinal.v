(** * The writer lemmas in the form the properties use *)
From Coq Require Import ZifyBool ZifyNat Lia.
From Verif Require Import PropDefs BytesFacts ProgFacts ReadFacts ReadLemmas Safety.
From Verif Require Import WriteFacts WriteMain WriteLoc WriteErr WriteRel WriteMore.

Lemma write_failed_at c S fs vs s r id s' ch : wf fs = true -> typed fs = true ->
  has_fields fs vs -> wrun S (stream_cast c fs vs) s = (Err (r, id), s', ch) ->
  exists pre t k v ch1 ch2 tail, field_at fs vs pre id t k v /\
    ch = ch1 ++ ch2 /\ (forall b, ~ In (b, false) ch1) /\
    concat (map fst ch1) = bytes_before c pre (emitted c fs vs) /\
    enc_ty (c_wire c) t (nth (f_len pre) (emitted c fs vs) VNone) = concat (map fst ch2) ++ tail /\
    (atomic t = true -> (forall b, ~ In (b, false) ch2) -> concat (map fst ch2) = []).
Proof.
  intros Hw Ht Hv Hr.
  destruct (locate c fs vs S Hw Ht Hv fs vs FNil [] eq_refl eq_refl eq_refl s r id s' ch Hr)
    as (mid & t & k & post & v & ch1 & ch2 & tail & H1 & H2 & H3 & H4 & H5 & H6 & H7).
  exists mid, t, k, v, ch1, ch2, tail. simpl in *. auto 10.
Qed.

Lemma write_vocabulary c S fs vs s r id s' ch :
  wrun S (stream_cast c fs vs) s = (Err (r, id), s', ch) ->
  In id (f_ids fs) /\ r <> ExcessiveLength /\
  (r = BufferExhaustion <-> exists bs, In (bs, false) ch).
Proof.
  intros Hr. destruct (wrun_prefix _ _ S _ (cast_wok c fs vs) _ _ _ _ Hr) as [_ [(H1 & H2 & H3)|H1]].
  - destruct (H3 _ eq_refl) as [He Hi]. simpl in He, Hi. unfold w_err in He. split; auto. split.
    + intros ->. intuition discriminate.
    + split; [intros ->; intuition discriminate|]. intros (bs & Hin). exfalso. eapply H1; eauto.
  - destruct H1 as (ch' & bs & e & -> & H2 & H3 & H4). inversion H3; subst e. destruct H4 as [H4 Hi].
    simpl in H4, Hi. unfold w_refused in H4. split; auto. split; [congruence|]. split; auto.
    intros _. exists bs. apply in_or_app. right. left. auto.
Qed.

Lemma write_prefix c S fs vs s o s' ch : wf fs = true -> typed fs = true -> has_fields fs vs ->
  wrun S (stream_cast c fs vs) s = (o, s', ch) ->
  (exists tail, snd (wmem (stream_cast c fs vs)) = concat (map fst ch) ++ tail) /\
  ((forall bs, ~ In (bs, false) ch) /\ (o, concat (map fst ch)) = wmem (stream_cast c fs vs) \/
   exists ch' bs pre id t k v part tail,
     ch = ch' ++ [(bs, false)] /\ (forall b, ~ In (b, false) ch') /\
     o = Err (BufferExhaustion, id) /\ field_at fs vs pre id t k v /\
     concat (map fst ch') ++ bs = bytes_before c pre (emitted c fs vs) ++ part ++ bs /\
     enc_ty (c_wire c) t (nth (f_len pre) (emitted c fs vs) VNone) = part ++ bs ++ tail).
Proof.
  intros Hw Ht Hv Hr.
  destruct (wrun_prefix _ _ S _ (cast_wok c fs vs) _ _ _ _ Hr) as [H0 H1]. split; auto.
  destruct H1 as [(H1 & H2 & H3)|(ch' & bs & [r id] & -> & H2 & -> & H4)]; auto. right.
  destruct H4 as [H4 Hi]. simpl in H4. unfold w_refused in H4. subst r.
  destruct (write_failed_at c S fs vs s _ id s' _ Hw Ht Hv Hr)
    as (pre & t & k & v & ch1 & ch2 & tail & Hat & E & N1 & B & En & _).
  destruct (exists_last (l := ch2)) as (ch3 & x & E3).
  { intros ->. rewrite app_nil_r in E. eapply N1. rewrite <- E. apply in_or_app. right. left. reflexivity. }
  subst ch2. rewrite app_assoc in E. apply app_inj_tail in E. destruct E as [-> <-].
  exists (ch1 ++ ch3), bs, pre, id, t, k, v, (concat (map fst ch3)), tail.
  split; auto. split; auto. split; auto. split; auto. split.
  - rewrite map_app, concat_app, B, app_assoc. auto.
  - rewrite En, map_app, concat_app. simpl. rewrite app_nil_r, <- app_assoc. auto.
Qed.

Lemma write_total c S fs vs s o s' ch : wf fs = true -> typed fs = true -> has_fields fs vs ->
  wrun S (stream_cast c fs vs) s = (o, s', ch) ->
  o = Ok tt \/ (exists r id, o = Err (r, id) /\ In id (f_ids fs)) \/ (o = UB /\ plain_fields fs = false).
Proof.
  intros Hw Ht Hv Hr.
  destruct (wrun_prefix _ _ S _ (cast_wok c fs vs) _ _ _ _ Hr) as [H0 H1].
  destruct H1 as [(H1 & H2 & H3)|(ch' & bs & [r id] & -> & H2 & -> & H4)].
  - assert (G : good (plain_fields fs = false) false (enc_fields (c_wire c) fs (emitted c fs vs))
                  (wmem (stream_cast c fs vs))).
    { apply stream_cast_good; auto. destruct (plain_fields fs); auto. }
    rewrite <- H2 in G. unfold good in G. simpl in G.
    destruct o as [[]|[r id]| | |]; auto; try tauto.
    right. left. exists r, id. split; auto. apply (H3 _ eq_refl).
  - right. left. exists r, id. split; auto. apply H4.
Qed.

(** Claims in terms of the fields that make them. *)

Lemma claims_app c id pre : forall gs vpre ws, length vpre = f_len pre ->
  claims c id (f_app pre gs) (vpre ++ ws) = claims c id pre vpre ++ claims c id gs ws.
Proof.
  induction pre; intros gs [|v vpre] ws L; simpl in *; try discriminate; auto.
  rewrite IHpre by lia. apply app_assoc.
Qed.

Lemma cond_claims_app E id pre : forall gs vpre ws, length vpre = f_len pre ->
  cond_claims E id (f_app pre gs) (vpre ++ ws) = cond_claims E id pre vpre ++ cond_claims E id gs ws.
Proof.
  induction pre; intros gs [|v vpre] ws L; simpl in *; try discriminate; auto.
  rewrite IHpre by lia. apply app_assoc.
Qed.

Lemma claim_in c fs vs pre id t k v i z : field_at fs vs pre id t k v ->
  In z (claim c i t v) -> In z (claims c i fs vs).
Proof.
  intros (post & vpre & vpost & -> & -> & L) H. rewrite claims_app by auto. simpl.
  rewrite !in_app_iff. auto.
Qed.

Lemma cond_claim_in E fs vs pre id t k v i z : field_at fs vs pre id t k v ->
  In z (cond_claim E i t v) -> In z (cond_claims E i fs vs).
Proof.
  intros (post & vpre & vpost & -> & -> & L) H. rewrite cond_claims_app by auto. simpl.
  rewrite !in_app_iff. auto.
Qed.

Lemma sized_claim c i t v n : sized_by i t v = Some n -> In (Z.of_nat n) (claim c i t v).
Proof.
  intros H. assert (claim c i t v = map Z.of_nat (to_list (sized_by i t v))) as ->.
  { destruct t; auto. discriminate. }
  rewrite H. simpl. auto.
Qed.

Lemma length_written c fs vs pre id s n k v out pre' id' t' k' v' m :
  wf fs = true -> typed fs = true -> has_fields fs vs ->
  field_at fs vs pre id (FFixed (TScalar s) n) k v ->
  field_at fs vs pre' id' t' k' v' -> sized_by id t' v' = Some m ->
  (c_wire c = Little \/ n = ssize s) -> (1 < c_szw c)%nat ->
  wmem (stream_cast c fs vs) = (Ok tt, out) ->
  exists bs rest, out = bytes_before c pre (emitted c fs vs) ++ bs ++ rest /\ length bs = n /\
    number (c_wire c) bs = Z.of_nat m.
Proof.
  intros Hw Ht Hv Hat Hat' Hs Ho Hz Hok.
  destruct (length_on_wire c fs vs pre id s n k v out (Z.of_nat m)) as (bs & rest & H1 & H2 & H3 & _); auto.
  - eapply claim_in; eauto. apply sized_claim; auto.
  - eauto.
Qed.

(** Match values a discriminant of type [s] can tell apart: each is a value of [s],
    and none equals another. *)
Lemma disc_written c fs vs pre id s n k v out pre' id' s' cases al k' j v' sj mv :
  wf fs = true -> typed fs = true -> has_fields fs vs ->
  field_at fs vs pre id (FFixed (TScalar s) n) k v ->
  field_at fs vs pre' id' (FUnion (GField id s' cases) al) k' (VAlt j v') ->
  nth_error cases j = Some (sj, mv) ->
  (c_wire c = Little \/ n = ssize s) -> (1 < c_szw c)%nat ->
  wmem (stream_cast c fs vs) = (Ok tt, out) ->
  exists bs rest, out = bytes_before c pre (emitted c fs vs) ++ bs ++ rest /\ length bs = n /\
    number (c_wire c) bs = mv mod 256 ^ Z.of_nat (c_szw c).
Proof.
  intros Hw Ht Hv Hat Hat' Hc Ho Hz Hok.
  destruct (length_on_wire c fs vs pre id s n k v out (mv mod 256 ^ Z.of_nat (c_szw c)))
    as (bs & rest & H1 & H2 & H3 & _); auto.
  - eapply claim_in; eauto. simpl. rewrite String.eqb_refl, Hc. simpl. auto.
  - eauto.
Qed.

Lemma disc_selects c fs vs pre id s n k v out pre' id' s' cases al k' j v' sj mv :
  wf fs = true -> typed fs = true -> has_fields fs vs ->
  field_at fs vs pre id (FFixed (TScalar s) n) k v ->
  field_at fs vs pre' id' (FUnion (GField id s' cases) al) k' (VAlt j v') ->
  nth_error cases j = Some (sj, mv) -> 0 <= mv < 256 ^ Z.of_nat (c_szw c) ->
  (forall i si m, (i < j)%nat -> nth_error cases i = Some (si, m) -> cxx_eq s' mv si m = false) ->
  (c_wire c = Little \/ n = ssize s) -> (1 < c_szw c)%nat ->
  wmem (stream_cast c fs vs) = (Ok tt, out) ->
  exists bs rest, out = bytes_before c pre (emitted c fs vs) ++ bs ++ rest /\ length bs = n /\
    number (c_wire c) bs = mv /\ first_case s' (number (c_wire c) bs) cases j.
Proof.
  intros Hw Ht Hv Hat Hat' Hc Hmv Hd Ho Hz Hok.
  destruct (disc_written c fs vs pre id s n k v out pre' id' s' cases al k' j v' sj mv)
    as (bs & rest & H1 & H2 & H3); auto.
  rewrite Z.mod_small in H3 by auto.
  exists bs, rest. split; auto. split; auto. split; auto. rewrite H3. split.
  - exists (sj, mv). split; auto. unfold cxx_eq. simpl. apply Z.eqb_refl.
  - intros i [si m] Hi Hn. simpl. eauto.
Qed.

Lemma nothing_of_failed c S fs vs s r id s' ch : wf fs = true -> typed fs = true ->
  has_fields fs vs -> wrun S (stream_cast c fs vs) s = (Err (r, id), s', ch) ->
  r <> BufferExhaustion ->
  exists pre t k v part, field_at fs vs pre id t k v /\
    concat (map fst ch) = bytes_before c pre (emitted c fs vs) ++ part /\
    (atomic t = true -> part = []).
Proof.
  intros Hw Ht Hv Hr Hne.
  destruct (write_vocabulary _ _ _ _ _ _ _ _ _ Hr) as (_ & _ & Hb).
  destruct (write_failed_at _ _ _ _ _ _ _ _ _ Hw Ht Hv Hr)
    as (pre & t & k & v & ch1 & ch2 & tail & Hat & -> & N1 & B & En & Ha).
  exists pre, t, k, v, (concat (map fst ch2)). split; auto. split.
  - rewrite map_app, concat_app, B. auto.
  - intros H. apply Ha; auto. intros b Hin. apply Hne, Hb. exists b. apply in_or_app; auto.
Qed.
