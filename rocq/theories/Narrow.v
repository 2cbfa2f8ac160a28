(** * Narrow fields, lengths, magic strings *)
From Coq Require Import ZifyBool ZifyNat Lia.
From Verif Require Import PropDefs BytesFacts ProgFacts ReadFacts ReadLemmas ReadMore Safety ReadFinal.
From Verif Require Import WriteFacts WriteMain WriteLoc WriteErr WriteRel WriteMore WriteFinal RTrip RTrip2 Rewrite.

Lemma le_dec_split m : forall l, (m <= length l)%nat ->
  le_dec l = le_dec (firstn m l) + pow256 m * le_dec (skipn m l).
Proof.
  induction m; intros l Hl; simpl; [rewrite pow256_0; lia|].
  destruct l as [|b l]; simpl in *; [lia|]. rewrite (IHm l) by lia. rewrite pow256_S. lia.
Qed.

Lemma le_enc_parts m w b : (m <= w)%nat -> 0 <= b < pow256 w ->
  le_dec (firstn m (le_enc w b)) = b mod pow256 m /\ le_dec (skipn m (le_enc w b)) = b / pow256 m.
Proof.
  intros Hm Hb.
  assert (H : b = le_dec (firstn m (le_enc w b)) + pow256 m * le_dec (skipn m (le_enc w b))).
  { rewrite <- le_dec_split by (rewrite le_enc_length; auto). rewrite le_dec_enc, Z.mod_small; auto. }
  assert (Hr : 0 <= le_dec (firstn m (le_enc w b)) < pow256 m).
  { pose proof (le_dec_bound (firstn m (le_enc w b)) (Forall_firstn _ _ _ (le_enc_bytes w b))) as G.
    rewrite firstn_length, le_enc_length, Nat.min_l in G by auto. auto. }
  pose proof (pow256_pos m). split.
  - apply Z.mod_unique with (q := le_dec (skipn m (le_enc w b))); lia.
  - apply Z.div_unique with (r := le_dec (firstn m (le_enc w b))); lia.
Qed.

Lemma firstn_rev' {A} (l : list A) n : (n <= length l)%nat ->
  firstn n (rev l) = rev (skipn (length l - n) l).
Proof. intros H. rewrite <- (rev_involutive l) at 2 3. rewrite rev_length, skipn_rev, rev_involutive.
  f_equal. rewrite rev_length. lia. Qed.

Lemma skipn_rev' {A} (l : list A) n : skipn n (rev l) = rev (firstn (length l - n) l).
Proof. apply skipn_rev. Qed.

(** The bytes of a narrow scalar. *)
Lemma narrow_number o s n z : (n <= ssize s)%nat ->
  number o (firstn n (wire_scalar o s z)) =
  match o with
  | Little => sc_bits s z mod pow256 n
  | Big => sc_bits s z / pow256 (ssize s - n)
  end.
Proof.
  intros Hn. rewrite number_dec. pose proof (sc_bits_range s z) as Hb.
  destruct o; simpl.
  - apply le_enc_parts; auto.
  - rewrite firstn_rev' by (rewrite le_enc_length; auto). rewrite rev_involutive, le_enc_length.
    apply le_enc_parts; auto. lia.
Qed.

Lemma Forall_rev' {A} (P : A -> Prop) l : Forall P (rev l) -> Forall P l.
Proof. intros H. rewrite <- (rev_involutive l). apply Forall_rev. auto. Qed.

Lemma narrow_bits o s n z : (n <= ssize s)%nat -> representable o (TScalar s) n (VZ z) ->
  sc_bits s z = number o (firstn n (wire_scalar o s z)) * scale o (ssize s) n.
Proof.
  intros Hn Hr. rewrite narrow_number by auto. pose proof (sc_bits_range s z) as Hb.
  unfold representable in Hr. simpl in Hr. destruct o; simpl in *.
  - rewrite Z.mul_1_r. symmetry. apply Z.mod_small. split; [lia|]. eapply zero_tail; eauto.
  - rewrite skipn_rev', le_enc_length in Hr. apply Forall_rev' in Hr. apply zeros_dec in Hr.
    destruct (le_enc_parts (ssize s - n) (ssize s) (sc_bits s z)) as [H1 _]; auto; [lia|].
    rewrite Hr in H1. fold (pow256 (ssize s - n)). pose proof (pow256_pos (ssize s - n)).
    pose proof (Z.div_mod (sc_bits s z) (pow256 (ssize s - n))). lia.
Qed.

Lemma enc_at c fs vs pre id t k v : field_at fs vs pre id t k v ->
  exists tail, enc_fields (c_wire c) fs vs = bytes_before c pre vs ++ enc_ty (c_wire c) t v ++ tail.
Proof.
  intros (post & vpre & vpost & -> & -> & L). exists (enc_fields (c_wire c) post vpost).
  unfold bytes_before. rewrite <- L, firstn_app, Nat.sub_diag, firstn_all, app_nil_r.
  revert vpre L. induction pre as [|i t0 k0 pre IH]; intros [|x vpre] L; simpl in *; try discriminate; auto.
  rewrite IH by lia. rewrite app_assoc. auto.
Qed.

(** Where a field of a struct that was read lies, and that it is valid. *)
Lemma read_at c fs bs vs rest pre id t k v : wf fs = true -> Forall byte_ok bs ->
  rmem (struct_cast c fs) bs = (Ok vs, rest) -> field_at fs vs pre id t k v ->
  valid_ty c (mk_env fs vs) t v /\ holds k v /\
  exists tail, bs = bytes_before c pre vs ++ enc_ty (c_wire c) t v ++ tail.
Proof.
  intros Hw Hb H Hat. destruct (read_sound c fs bs vs rest Hw Hb H) as [Hv E].
  destruct (valid_fields_at c _ fs vs _ _ _ _ _ Hv Hat) as [H1 H2]. split; auto. split; auto.
  destruct (enc_at c _ _ _ _ _ _ _ Hat) as [tail Et]. exists (tail ++ rest).
  rewrite E, Et, <- !app_assoc. auto.
Qed.

Lemma wf_at fs vs pre id t k v : wf fs = true -> field_at fs vs pre id t k v ->
  exists seen, wf_ty seen t = true.
Proof.
  intros Hw (post & vpre & vpost & -> & _). unfold wf in Hw. revert Hw. generalize (@nil ident) as seen.
  induction pre as [|i t0 k0 pre IH]; intros seen Hw; simpl in Hw; rewrite !andb_true_iff in Hw.
  - exists seen. tauto.
  - eapply IH. apply Hw.
Qed.

Lemma narrow_read c fs bs vs rest pre id s n k z : wf fs = true -> Forall byte_ok bs ->
  rmem (struct_cast c fs) bs = (Ok vs, rest) ->
  field_at fs vs pre id (FFixed (TScalar s) n) k (VZ z) ->
  exists part tail, bs = bytes_before c pre vs ++ part ++ tail /\ length part = n /\
    z mod 256 ^ Z.of_nat (ssize s) = number (c_wire c) part * scale (c_wire c) (ssize s) n.
Proof.
  intros Hw Hb H Hat. destruct (read_at _ _ _ _ _ _ _ _ _ _ Hw Hb H Hat) as ([Hi Hr] & _ & tail & E).
  destruct (wf_at _ _ _ _ _ _ _ Hw Hat) as [seen W]. simpl in W. apply andb_true_iff in W.
  destruct W as [_ W]. apply Nat.leb_le in W.
  exists (firstn n (wire_scalar (c_wire c) s z)), tail. split; [exact E|]. split.
  - rewrite firstn_length, wire_scalar_enc, wire_enc_length. lia.
  - apply (narrow_bits (c_wire c) s n z W Hr).
Qed.

Lemma number_bound o l : Forall byte_ok l -> 0 <= number o l < pow256 (length l).
Proof. intros H. rewrite number_dec. apply wire_dec_bound; auto. Qed.

Lemma narrow_read_little c fs bs vs rest pre id s n k z : wf fs = true -> Forall byte_ok bs ->
  c_wire c = Little -> (unsigned s = true \/ (n < ssize s)%nat) ->
  rmem (struct_cast c fs) bs = (Ok vs, rest) ->
  field_at fs vs pre id (FFixed (TScalar s) n) k (VZ z) ->
  exists part tail, bs = bytes_before c pre vs ++ part ++ tail /\ length part = n /\
    z = number Little part.
Proof.
  intros Hw Hb Hl Hs H Hat.
  destruct (read_at _ _ _ _ _ _ _ _ _ _ Hw Hb H Hat) as ([Hi _] & _ & _). simpl in Hi.
  destruct (narrow_read _ _ _ _ _ _ _ _ _ _ _ Hw Hb H Hat) as (part & tail & E & L & N).
  exists part, tail. split; auto. split; auto. rewrite Hl in N. simpl in N. rewrite Z.mul_1_r in N.
  rewrite <- N. fold (pow256 (ssize s)) in *.
  assert (Hp : Forall byte_ok part).
  { rewrite E in Hb. apply Forall_app in Hb. destruct Hb as [_ Hb]. apply Forall_app in Hb. tauto. }
  pose proof (number_bound Little part Hp) as Hn. rewrite L in Hn.
  destruct s as [w [|]|]; simpl in *.
  - destruct Hs as [|Hs]; [discriminate|]. symmetry. apply Z.mod_small. split; [|lia].
    destruct (Z.ltb_spec z 0); [|lia]. exfalso.
    assert (z mod pow256 w = z + pow256 w).
    { rewrite <- (Z.mod_small (z + pow256 w) (pow256 w)) by lia.
      replace (z + pow256 w) with (z + 1 * pow256 w) by lia. rewrite Z.mod_add by lia. auto. }
    assert (2 * pow256 n <= pow256 w).
    { destruct w; [lia|]. rewrite pow256_S. pose proof (pow256_le n w). lia. }
    lia.
  - symmetry. apply Z.mod_small. lia.
  - symmetry. apply Z.mod_small. unfold pow256. lia.
Qed.

Lemma narrow_write c fs vs out pre id s n k z : wf fs = true -> typed fs = true ->
  has_fields fs vs -> field_at fs vs pre id (FFixed (TScalar s) n) k (VZ z) ->
  overwritten fs id (FFixed (TScalar s) n) k = false ->
  wmem (stream_cast c fs vs) = (Ok tt, out) ->
  exists part tail, out = bytes_before c pre (emitted c fs vs) ++ part ++ tail /\ length part = n /\
    number (c_wire c) part =
    match c_wire c with
    | Little => z mod 256 ^ Z.of_nat n
    | Big => z mod 256 ^ Z.of_nat (ssize s) / 256 ^ Z.of_nat (ssize s - n)
    end.
Proof.
  intros Hw Ht Hv Hat Ho Hok. rewrite (write_encodes c fs vs out Hw Ht Hv Hok).
  pose proof (emitted_at c _ _ _ _ _ _ _ Hat) as Hat'.
  rewrite (not_overwritten c _ _ _ _ _ _ _ Hw Ht Hv Hat Ho) in Hat'. simpl in Hat'.
  destruct (enc_at c _ _ _ _ _ _ _ Hat') as [tail Et]. rewrite Et.
  destruct (wf_at _ _ _ _ _ _ _ Hw Hat) as [seen W]. simpl in W. apply andb_true_iff in W.
  destruct W as [_ W]. apply Nat.leb_le in W.
  exists (firstn n (wire_scalar (c_wire c) s z)), tail. split; auto. split.
  - rewrite firstn_length, wire_scalar_enc, wire_enc_length. lia.
  - rewrite narrow_number by auto. unfold sc_bits. destruct (c_wire c); auto.
    fold (pow256 n). replace (ssize s) with (n + (ssize s - n))%nat by lia.
    unfold pow256. rewrite Nat2Z.inj_add, Z.pow_add_r by lia.
    rewrite Z.rem_mul_r by lia. rewrite Z.mul_comm, Z_mod_plus_full, Z.mod_mod; lia.
Qed.

(** ** Lengths *)

Lemma inside_valid c E t v t' v' : inside t v t' v' -> valid_ty c E t v -> valid_ty c E t' v'.
Proof.
  induction 1; intros Hv; auto.
  - destruct Hv as (args & _ & Hv). destruct (p args); [|discriminate].
    destruct Hv as (w & Ew & Hw). inversion Ew; subst. auto.
  - destruct Hv as (j & w & Ew & _ & Hw). inversion Ew; subst. eapply IHinside, valid_nth; eauto.
Qed.

Lemma inside_wf seen t v t' v' : inside t v t' v' -> wf_ty seen t = true -> wf_ty seen t' = true.
Proof.
  induction 1; intros Hw; simpl in *; auto; apply andb_true_iff in Hw; [apply IHinside; tauto|].
  destruct Hw as [_ Hw]. apply IHinside. clear -H Hw. revert i H.
  induction al as [|t0 k0 al IH]; intros [|i] H; simpl in *; try discriminate; apply andb_true_iff in Hw.
  - inversion H; subst. tauto.
  - eapply IH; eauto. tauto.
Qed.

Lemma count_read c fs bs vs rest pre id t k v lid b t' xs z : wf fs = true -> Forall byte_ok bs ->
  rmem (struct_cast c fs) bs = (Ok vs, rest) ->
  field_at fs vs pre id t k v -> inside t v t' (VSeq xs) -> prefixed_by lid b t' ->
  lookup (mk_env fs vs) lid = Some (VZ z) ->
  Z.of_nat (length xs) = z mod 256 ^ Z.of_nat (c_szw c) /\
  Z.of_nat (length xs) <= ceiling_of c b.
Proof.
  intros Hw Hb H Hat Hin Hp Hl.
  destruct (read_at _ _ _ _ _ _ _ _ _ _ Hw Hb H Hat) as (Hv & _ & _).
  apply (inside_valid _ _ _ _ _ _ Hin) in Hv.
  destruct (wf_at _ _ _ _ _ _ _ Hw Hat) as [seen W]. apply (inside_wf _ _ _ _ _ Hin) in W.
  destruct t' as [| ? [|] ?| | |? ? [|] ?| |]; simpl in Hp; try tauto; destruct Hp; subst.
  - destruct Hv as (xs' & E & _ & (z' & Hl' & Hn) & Hwi).
    inversion E; subst xs'. rewrite Hl in Hl'. inversion Hl'; subst z'. split; auto.
    simpl in W. apply andb_true_iff in W.
    destruct W as [W _]. pose proof (csize_pos _ W). unfold within in Hwi. unfold ceiling_of. nia.
  - destruct Hv as (xs' & E & _ & (z' & Hl' & Hn) & Hwi).
    inversion E; subst xs'. rewrite Hl in Hl'. inversion Hl'; subst z'. split; auto.
    simpl in W. rewrite !andb_true_iff in W. unfold within in Hwi. unfold ceiling_of. nia.
Qed.

Lemma mod_half p z n c : 0 < p -> - p <= 2 * z < 2 * p -> n = z mod p -> n <= c -> 2 * c < p -> n = z.
Proof.
  intros Hp Hz Hn Hc H. destruct (Z.ltb_spec z 0).
  - assert (z mod p = z + p).
    { rewrite <- (Z.mod_small (z + p) p) by lia. replace (z + p) with (z + 1 * p) by lia.
      rewrite Z.mod_add by lia. auto. }
    lia.
  - rewrite Z.mod_small in Hn; lia.
Qed.

Lemma count_exact c fs bs vs rest pre id t k v lid b t' xs pre' s n k' z :
  wf fs = true -> Forall byte_ok bs -> rmem (struct_cast c fs) bs = (Ok vs, rest) ->
  field_at fs vs pre id t k v -> inside t v t' (VSeq xs) -> prefixed_by lid b t' ->
  field_at fs vs pre' lid (FFixed (TScalar s) n) k' (VZ z) ->
  (ssize s <= c_szw c)%nat -> (0 < c_szw c)%nat ->
  unsigned s = true \/ 2 * ceiling_of c b < 256 ^ Z.of_nat (c_szw c) ->
  Z.of_nat (length xs) = z.
Proof.
  intros Hw Hb H Hat Hin Hp Hat' Hs Hz Hg. destruct (wf_fields_ids _ _ Hw) as [Hn _].
  destruct (count_read _ _ _ _ _ _ _ _ _ _ _ _ _ _ _ Hw Hb H Hat Hin Hp (lookup_at _ _ _ _ _ _ _ Hn Hat')) as [H1 H2].
  destruct (read_at _ _ _ _ _ _ _ _ _ _ Hw Hb H Hat') as ([Hi _] & _ & _). simpl in Hi.
  fold (pow256 (c_szw c)) in *. pose proof (pow256_le _ _ Hs). pose proof (pow256_ge _ Hz).
  destruct s as [w [|]|]; simpl in *.
  - destruct Hg as [|Hg]; [discriminate|]. eapply mod_half; eauto; lia.
  - rewrite Z.mod_small in H1; lia.
  - rewrite Z.mod_small in H1; lia.
Qed.

(** ** Magic strings *)

Lemma c_string_inj a x y : c_string a x -> c_string a y -> x = y.
Proof.
  intros [Hx (r & ->)] [Hy (r' & E)]. revert y Hy E. induction x as [|b x IH]; intros [|d y] Hy E; simpl in *; auto.
  - inversion E; subst. tauto.
  - inversion E; subst. tauto.
  - inversion E; subst. f_equal. apply IH; auto.
Qed.

Lemma own_string cs : ~ In 0 cs -> c_string (cs ++ [0]) cs.
Proof. intros H. split; auto. exists []. auto. Qed.

Lemma magic_value cs v : ~ In 0 cs ->
  ct_ok (TFixStr (length cs)) v -> holds (CStr false (cs ++ [0])) v -> v = VSeq (map VZ (cs ++ [0])).
Proof.
  intros Hn Hv (a & x & y & -> & Ha & Hy & ->).
  rewrite <- (c_string_inj _ _ _ (own_string cs Hn) Hy) in Ha. destruct Ha as [_ (r & ->)].
  destruct Hv as [L _]. rewrite map_length, app_length in L. simpl in L. destruct r; auto. simpl in L. lia.
Qed.

Lemma enc_string o cs : enc_ty o (FFixed (TFixStr (length cs)) (S (length cs))) (VSeq (map VZ (cs ++ [0]))) = cs ++ [0].
Proof.
  cbn [enc_ty enc_ct]. rewrite map_map, map_id. rewrite firstn_all2; auto. rewrite app_length. simpl. lia.
Qed.

Lemma magic_accepts c id cs bs : ~ In 0 cs -> Forall byte_ok cs -> Forall byte_ok bs ->
  (exists vs rest, rmem (struct_cast c (magic_string id cs FNil)) bs = (Ok vs, rest)) <->
  (exists rest, bs = cs ++ 0 :: rest).
Proof.
  intros Hn Hc Hb. assert (Hw : wf (magic_string id cs FNil) = true).
  { unfold wf, magic_string. cbn -[Nat.eqb]. rewrite Nat.eqb_refl. auto. }
  split.
  - intros (vs & rest & H). destruct (read_sound _ _ _ _ _ Hw Hb H) as [Hv E].
    unfold valid, magic_string in Hv.
    destruct vs as [|v [|]]; cbn [valid_fields] in Hv; try tauto.
    destruct Hv as ([Hv _] & Hk & _). rewrite (magic_value cs v Hn Hv Hk) in E.
    exists rest. rewrite E. unfold magic_string. cbn [enc_fields]. rewrite enc_string, app_nil_r, <- app_assoc. auto.
  - intros (rest & ->). exists [VSeq (map VZ (cs ++ [0]))], rest.
    assert (cs ++ 0 :: rest = enc_fields (c_wire c) (magic_string id cs FNil) [VSeq (map VZ (cs ++ [0]))] ++ rest) as ->.
    { unfold magic_string. cbn [enc_fields]. rewrite enc_string, app_nil_r, <- app_assoc. auto. }
    apply read_complete; auto. unfold valid, magic_string. cbn [valid_fields valid_ty]. split; [|split; auto].
    + split.
      * simpl. rewrite map_length, app_length. simpl. split; [lia|]. rewrite Forall_map, Forall_app.
        split; [eapply Forall_impl; [|exact Hc]; eauto|]. constructor; auto. exists 0. split; auto.
        unfold byte_ok. lia.
      * unfold representable. cbn [enc_ct]. rewrite map_map, map_id. rewrite skipn_all2; auto.
        rewrite app_length. simpl. lia.
    + exists (cs ++ [0]), cs, cs. split; auto. split; [apply own_string; auto|]. split; auto. apply own_string; auto.
Qed.

Lemma magic_at c fs bs vs rest pre id cs v : wf fs = true -> Forall byte_ok bs -> ~ In 0 cs ->
  rmem (struct_cast c fs) bs = (Ok vs, rest) ->
  field_at fs vs pre id (FFixed (TFixStr (length cs)) (S (length cs))) (CStr false (cs ++ [0])) v ->
  exists tail, bs = bytes_before c pre vs ++ cs ++ 0 :: tail.
Proof.
  intros Hw Hb Hn H Hat. destruct (read_at _ _ _ _ _ _ _ _ _ _ Hw Hb H Hat) as ([Hv _] & Hk & tail & E).
  exists tail. rewrite (magic_value cs v Hn Hv Hk), enc_string, <- app_assoc in E. exact E.
Qed.

Lemma chars_of_map l : chars_of (map VZ l) = Some l.
Proof. induction l; simpl; auto. rewrite IHl. auto. Qed.

Lemma cstr_some a : In 0 a -> exists x, cstr a = Some x /\ c_string a x.
Proof.
  induction a as [|b a IH]; simpl; [tauto|]. intros H. destruct (Z.eqb_spec b 0).
  - subst. exists []. split; auto. split; auto. exists a. auto.
  - destruct H as [|H]; [lia|]. destruct (IH H) as (x & -> & Hx & r & ->). exists (b :: x). split; auto.
    split; [simpl; intros [|]; auto|]. exists r. auto.
Qed.

Lemma cstr_none a : ~ In 0 a -> cstr a = None.
Proof.
  induction a as [|b a IH]; simpl; auto. intros H. destruct (Z.eqb_spec b 0); [tauto|].
  rewrite IH; auto.
Qed.

Lemma plain_string c id n a rest : Forall byte_ok a -> length a = S n ->
  rmem (struct_cast c (FCons id (FFixed (TFixStr n) (S n)) CNone FNil)) (a ++ rest) =
  (Ok [VSeq (map VZ a)], rest).
Proof.
  intros Hb L.
  assert (E : a = enc_fields (c_wire c) (FCons id (FFixed (TFixStr n) (S n)) CNone FNil) [VSeq (map VZ a)]).
  { cbn [enc_fields enc_ty enc_ct]. rewrite map_map, map_id, app_nil_r, firstn_all2; auto. lia. }
  rewrite E at 1. apply read_complete.
  - unfold wf. cbn -[Nat.eqb]. rewrite Nat.eqb_refl. auto.
  - unfold valid. cbn [valid_fields valid_ty holds]. split; [|auto]. split.
    + simpl. rewrite map_length. split; auto. rewrite Forall_map. eapply Forall_impl; [|exact Hb]. eauto.
    + unfold representable. cbn [enc_ct]. rewrite map_map, map_id, skipn_all2; auto. lia.
Qed.

Lemma magic_outcome c id cs a rest : ~ In 0 cs -> Forall byte_ok a -> length a = S (length cs) ->
  (a = cs ++ [0] ->
   rmem (struct_cast c (magic_string id cs FNil)) (a ++ rest) = (Ok [VSeq (map VZ a)], rest)) /\
  (In 0 a -> a <> cs ++ [0] ->
   rmem (struct_cast c (magic_string id cs FNil)) (a ++ rest) = (Err (ValidationFailure, id), rest)) /\
  (~ In 0 a -> rmem (struct_cast c (magic_string id cs FNil)) (a ++ rest) = (UB, rest)).
Proof.
  intros Hn Hb L. unfold magic_string.
  rewrite (one_field_constraint _ _ _ _ _ _ _ (plain_string c id (length cs) a rest Hb L)).
  simpl check. rewrite chars_of_map. unfold fixed_string_eq.
  destruct (cstr_some (cs ++ [0])) as (y & Ey & Hy); [apply in_or_app; right; left; auto|].
  assert (y = cs) as -> by (eapply c_string_inj; eauto; apply own_string; auto).
  rewrite Ey. split; [|split].
  - intros ->. rewrite Ey. assert (zlist_eqb cs cs = true) as -> by (apply zlist_eqb_eq; auto). auto.
  - intros Hi Hne. destruct (cstr_some a Hi) as (x & -> & Hx). destruct (zlist_eqb x cs) eqn:Ez; auto.
    exfalso. apply zlist_eqb_eq in Ez. subst x. apply Hne. destruct Hx as [_ (r & ->)]. rewrite app_length in L. simpl in L.
    destruct r; auto. simpl in L. lia.
  - intros Hi. rewrite (cstr_none a Hi). auto.
Qed.

(** ** One narrow field, written then read *)

Lemma le_enc_app a : forall b z, le_enc (a + b) z = le_enc a z ++ le_enc b (z / pow256 a).
Proof.
  induction a; intros b z; cbn [Nat.add le_enc app].
  - rewrite pow256_0, Z.div_1_r. auto.
  - f_equal. rewrite IHa. f_equal. f_equal. rewrite pow256_S, Z.div_div; auto; [lia|apply pow256_pos].
Qed.

Lemma le_enc_0 n : Forall (fun b => b = 0) (le_enc n 0).
Proof. induction n; simpl; constructor; auto. Qed.

Lemma firstn_pre {A} (l m : list A) n : length l = n -> firstn n (l ++ m) = l.
Proof. intros <-. rewrite firstn_app, Nat.sub_diag, firstn_all, app_nil_r. auto. Qed.
Lemma skipn_pre {A} (l m : list A) n : length l = n -> skipn n (l ++ m) = m.
Proof. intros <-. rewrite skipn_app, Nat.sub_diag, skipn_all. auto. Qed.

Lemma wire_le s z : wire_scalar Little s z = le_enc (ssize s) z.
Proof. unfold wire_scalar, sc_bits. rewrite le_enc_mod. auto. Qed.
Lemma wire_be s z : wire_scalar Big s z = rev (le_enc (ssize s) z).
Proof. unfold wire_scalar, sc_bits. rewrite le_enc_mod. auto. Qed.

Lemma cut_enc o s n z : (n <= ssize s)%nat ->
  firstn n (wire_scalar o s (cut o s n z)) = firstn n (wire_scalar o s z) /\
  representable o (TScalar s) n (VZ (cut o s n z)).
Proof.
  intros Hn. unfold representable, cut. cbn [enc_ct].
  pose proof (pow256_pos n) as Hp. pose proof (pow256_pos (ssize s - n)) as Hq.
  destruct o.
  - rewrite !wire_le. destruct (Nat.ltb_spec n (ssize s)).
    + fold (pow256 n). assert (exists b, ssize s = n + b)%nat as [b ->] by (exists (ssize s - n)%nat; lia).
      rewrite !le_enc_app, le_enc_mod. rewrite !firstn_pre, skipn_pre by apply le_enc_length.
      split; auto. rewrite Z.div_small by (apply Z.mod_pos_bound; auto). apply le_enc_0.
    + assert (n = ssize s) as -> by lia. split; auto. rewrite skipn_all2; auto. rewrite le_enc_length. auto.
  - rewrite !wire_be. fold (pow256 (ssize s - n)).
    rewrite !firstn_rev', skipn_rev' by (rewrite le_enc_length; auto). rewrite !le_enc_length.
    assert (E : ssize s = ((ssize s - n) + n)%nat) by lia.
    remember (ssize s - n)%nat as a. rewrite E.
    assert (E2 : z - z mod pow256 a = (z / pow256 a) * pow256 a) by (pose proof (Z.div_mod z (pow256 a)); lia).
    rewrite !le_enc_app. replace (a + n - n)%nat with a by lia.
    rewrite !skipn_pre, firstn_pre by apply le_enc_length. rewrite E2, Z.div_mul by lia. split; auto.
    apply Forall_rev. rewrite <- le_enc_mod, Z.mod_mul by lia. apply le_enc_0.
Qed.

Lemma cut_in o s n z : (0 < n <= ssize s)%nat -> sc_in s z = true -> sc_in s (cut o s n z) = true.
Proof.
  intros Hn Hi. unfold cut. pose proof (pow256_pos n) as Hp. pose proof (pow256_pos (ssize s - n)) as Hq.
  destruct o.
  - destruct (Nat.ltb_spec n (ssize s)); auto. fold (pow256 n).
    pose proof (Z.mod_pos_bound z (pow256 n) Hp).
    destruct s as [w sg|]; simpl in *.
    + assert (256 * pow256 n <= pow256 w).
      { rewrite <- pow256_S. apply pow256_le. lia. }
      destruct sg; simpl in *; lia.
    + assert (n = 0%nat) as -> by lia. rewrite pow256_0 in *. rewrite Z.mod_1_r. auto.
  - fold (pow256 (ssize s - n)).
    pose proof (Z.mod_pos_bound z (pow256 (ssize s - n)) Hq).
    destruct s as [w sg|]; simpl in *.
    + pose proof (pow256_pos w) as Hw.
      assert (E : pow256 w = pow256 (w - n) * pow256 n).
      { unfold pow256. rewrite <- Z.pow_add_r by lia. f_equal. lia. }
      destruct sg; simpl in *.
      * destruct n as [|n].
        -- lia.
        -- rewrite pow256_S in E. pose proof (pow256_pos n). pose proof (Z.div_mod z (pow256 (w - S n))).
           assert (- (128 * pow256 n) <= z / pow256 (w - S n)); [|nia].
           apply Z.div_le_lower_bound; nia.
      * pose proof (Z.mod_le z (pow256 (w - n))). lia.
    + destruct n as [|n]; simpl in *; [lia|]. rewrite pow256_0, Z.mod_1_r. lia.
Qed.

Lemma slot_written c id s n z : (n <= ssize s)%nat -> ct_wf (TScalar s) = true -> sc_in s z = true ->
  wmem (stream_cast c (FCons id (FFixed (TScalar s) n) CNone FNil) [VZ z]) =
  (Ok tt, firstn n (wire_scalar (c_wire c) s z)).
Proof.
  intros Hn Hs Hi. unfold stream_cast. cbn -[write_const]. rewrite wmem_bind, wmem_maperr.
  rewrite write_const_ok; auto. cbn. rewrite app_nil_r. auto.
Qed.

Lemma slot_trip c id s n z rest : (0 < n <= ssize s)%nat -> ct_wf (TScalar s) = true -> sc_in s z = true ->
  exists out, wmem (stream_cast c (FCons id (FFixed (TScalar s) n) CNone FNil) [VZ z]) = (Ok tt, out) /\
  rmem (struct_cast c (FCons id (FFixed (TScalar s) n) CNone FNil)) (out ++ rest) =
  (Ok [VZ (cut (c_wire c) s n z)], rest).
Proof.
  intros Hn Hs Hi. eexists. split; [apply slot_written; auto; lia|].
  destruct (cut_enc (c_wire c) s n z) as [E R]; [lia|]. rewrite <- E.
  assert (firstn n (wire_scalar (c_wire c) s (cut (c_wire c) s n z)) =
    enc_fields (c_wire c) (FCons id (FFixed (TScalar s) n) CNone FNil) [VZ (cut (c_wire c) s n z)]) as ->.
  { cbn [enc_fields enc_ty enc_ct]. rewrite app_nil_r. auto. }
  apply read_complete.
  - unfold wf. cbn -[ct_wf csize]. rewrite Hs. simpl. rewrite andb_true_r. apply Nat.leb_le. lia.
  - unfold valid. cbn [valid_fields valid_ty holds]. split; auto. split; auto. apply cut_in; auto.
Qed.
