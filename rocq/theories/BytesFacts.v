(** Facts about bytes and scalar representations. *)
From Coq Require Import ZifyBool ZifyNat.
From Verif Require Import Read Write Spec.
Ltac Zify.zify_post_hook ::= Z.div_mod_to_equations.

Lemma Forall_firstn {A} (P : A -> Prop) n l : Forall P l -> Forall P (firstn n l).
Proof. intros H. revert n. induction H; intros [|n]; simpl; auto. Qed.

Lemma Forall_skipn {A} (P : A -> Prop) n l : Forall P l -> Forall P (skipn n l).
Proof. intros H. revert n. induction H; intros [|n]; simpl; auto. Qed.

Lemma Forall2_len {A B} (P : A -> B -> Prop) l m : Forall2 P l m -> length l = length m.
Proof. induction 1; simpl; auto. Qed.

Lemma pow256_0 : pow256 0 = 1.
Proof. reflexivity. Qed.

Lemma pow256_S w : pow256 (S w) = 256 * pow256 w.
Proof. unfold pow256. rewrite Nat2Z.inj_succ, Z.pow_succ_r; lia. Qed.

Lemma pow256_pos w : 0 < pow256 w.
Proof. unfold pow256. apply Z.pow_pos_nonneg; lia. Qed.

Lemma le_enc_length w : forall z, length (le_enc w z) = w.
Proof. induction w; intros; simpl; auto. Qed.

Lemma le_enc_bytes w : forall z, Forall byte_ok (le_enc w z).
Proof.
  induction w; intros; simpl; constructor; auto.
  unfold byte_ok. apply Z.mod_pos_bound. lia.
Qed.

Lemma le_dec_bound l : Forall byte_ok l -> 0 <= le_dec l < pow256 (length l).
Proof.
  induction 1 as [|b l Hb H IH]; simpl.
  - rewrite pow256_0. lia.
  - rewrite pow256_S. unfold byte_ok in Hb. lia.
Qed.

Lemma le_dec_enc w : forall z, le_dec (le_enc w z) = z mod pow256 w.
Proof.
  induction w; intros; simpl.
  - rewrite pow256_0, Z.mod_1_r. reflexivity.
  - rewrite IHw, pow256_S.
    pose proof (pow256_pos w).
    rewrite Z.rem_mul_r by lia. lia.
Qed.

Lemma le_enc_dec l : Forall byte_ok l -> le_enc (length l) (le_dec l) = l.
Proof.
  induction 1 as [|b l Hb H IH]; simpl; auto.
  unfold byte_ok in Hb. f_equal.
  - lia.
  - replace ((b + 256 * le_dec l) / 256) with (le_dec l) by lia. auto.
Qed.

Lemma le_enc_mod w : forall z, le_enc w (z mod pow256 w) = le_enc w z.
Proof.
  induction w; intros; simpl; auto.
  rewrite pow256_S. pose proof (pow256_pos w).
  rewrite Z.rem_mul_r by lia.
  f_equal.
  - rewrite (Z.mul_comm 256), Z.mod_add by lia. apply Z.mod_mod; lia.
  - rewrite <- (IHw (z / 256)). f_equal.
    rewrite (Z.mul_comm 256), Z.div_add by lia.
    rewrite Z.div_small; [lia|]. apply Z.mod_pos_bound; lia.
Qed.

Lemma le_enc_inj w x y : 0 <= x < pow256 w -> 0 <= y < pow256 w ->
  le_enc w x = le_enc w y -> x = y.
Proof.
  intros Hx Hy H. apply (f_equal le_dec) in H. rewrite !le_dec_enc in H.
  rewrite !Z.mod_small in H by lia. exact H.
Qed.

(** Decoding in the wire order. *)
Definition wire_dec (o : endian) (l : list Z) : Z :=
  match o with Little => le_dec l | Big => le_dec (rev l) end.

Definition wire_enc (o : endian) (w : nat) (b : Z) : list Z :=
  match o with Little => le_enc w b | Big => rev (le_enc w b) end.

Lemma wire_enc_length o w b : length (wire_enc o w b) = w.
Proof. destruct o; simpl; rewrite ?rev_length, le_enc_length; auto. Qed.

Lemma wire_enc_bytes o w b : Forall byte_ok (wire_enc o w b).
Proof. destruct o; simpl; try apply Forall_rev; apply le_enc_bytes. Qed.

Lemma wire_dec_bound o l : Forall byte_ok l -> 0 <= wire_dec o l < pow256 (length l).
Proof.
  destruct o; simpl; intros.
  - apply le_dec_bound; auto.
  - rewrite <- rev_length. apply le_dec_bound, Forall_rev; auto.
Qed.

Lemma wire_dec_enc o w b : wire_dec o (wire_enc o w b) = b mod pow256 w.
Proof. destruct o; simpl; rewrite ?rev_involutive; apply le_dec_enc. Qed.

Lemma wire_enc_dec o l : Forall byte_ok l -> wire_enc o (length l) (wire_dec o l) = l.
Proof.
  destruct o; simpl; intros.
  - apply le_enc_dec; auto.
  - rewrite <- (rev_length l), le_enc_dec by (apply Forall_rev; auto).
    apply rev_involutive.
Qed.

(** Swapping what one host order stored gives what the other would have stored. *)
Lemma mem_enc_byteswap h w b :
  mem_enc h w (byteswap w b) =
  match h with Little => rev (le_enc w b) | Big => le_enc w b end.
Proof.
  unfold byteswap, mem_enc.
  assert (E : le_enc w (le_dec (rev (le_enc w b))) = rev (le_enc w b)).
  { rewrite <- (le_enc_dec (rev (le_enc w b))) at 2
      by (apply Forall_rev, le_enc_bytes).
    rewrite rev_length, le_enc_length. reflexivity. }
  destruct h; rewrite E; auto. apply rev_involutive.
Qed.

Lemma byteswap_mem_dec h l : Forall byte_ok l ->
  byteswap (length l) (mem_dec h l) =
  match h with Little => le_dec (rev l) | Big => le_dec l end.
Proof.
  intros H. unfold byteswap, mem_dec. destruct h.
  - rewrite le_enc_dec; auto.
  - rewrite <- (rev_length l) at 1. rewrite le_enc_dec by (apply Forall_rev; auto).
    rewrite rev_involutive. reflexivity.
Qed.

Lemma rev_short {A} (l : list A) : (length l <= 1)%nat -> rev l = l.
Proof. destruct l as [|a [|b l]]; simpl; auto; lia. Qed.

(** The bits loaded are the wire-order decoding, whatever the host. *)
Lemma load_bits_wire c mem : Forall byte_ok mem ->
  load_bits c (length mem) mem = wire_dec (c_wire c) mem.
Proof.
  intros H. unfold load_bits, is_host_order.
  destruct c as [h o cx sz dm]; simpl.
  destruct (Nat.ltb_spec 1 (length mem)).
  - destruct h, o; simpl; auto;
      [exact (byteswap_mem_dec Little mem H) | exact (byteswap_mem_dec Big mem H)].
  - assert (R : rev mem = mem) by (apply rev_short; lia).
    destruct h, o; simpl; rewrite ?R; auto.
Qed.

(** Scalars: bits and values. *)
Lemma sc_bits_range s z : 0 <= sc_bits s z < pow256 (ssize s).
Proof. unfold sc_bits. apply Z.mod_pos_bound, pow256_pos. Qed.

Lemma pow256_ge w : (0 < w)%nat -> 256 <= pow256 w.
Proof. destruct w; [lia|]. intros. rewrite pow256_S. pose proof (pow256_pos w). lia. Qed.

Lemma pow256_even w : (0 < w)%nat -> exists h, pow256 w = 2 * h /\ 0 < h.
Proof.
  destruct w; [lia|]. intros. rewrite pow256_S. pose proof (pow256_pos w).
  exists (128 * pow256 w). lia.
Qed.

Lemma sc_of_bits_iff s b z : (0 < ssize s)%nat -> 0 <= b < pow256 (ssize s) ->
  sc_of_bits s b = Some z <-> sc_in s z = true /\ sc_bits s z = b.
Proof.
  intros Hw Hb. unfold sc_of_bits, sc_in, sc_bits in *.
  destruct s as [w [|]|]; simpl in *.
  - destruct (pow256_even w Hw) as [h [E Hh]]. rewrite E in *.
    split.
    + intros H; inversion H; subst; clear H.
      destruct (Z.ltb_spec (2 * b) (2 * h)).
      * split; [lia|]. apply Z.mod_small; lia.
      * split; [lia|].
        replace (b - 2 * h) with (b + (-1) * (2 * h)) by lia.
        rewrite Z.mod_add by lia. apply Z.mod_small; lia.
    + intros [H1 H2]. f_equal.
      destruct (Z.leb_spec 0 z).
      * rewrite Z.mod_small in H2 by lia. subst.
        destruct (Z.ltb_spec (2 * b) (2 * h)); lia.
      * assert (E2 : (z + 1 * (2 * h)) mod (2 * h) = b) by (rewrite Z.mod_add; lia).
        rewrite Z.mod_small in E2 by lia.
        destruct (Z.ltb_spec (2 * b) (2 * h)); lia.
  - split.
    + intros H; inversion H; subst. split; [lia|]. apply Z.mod_small; lia.
    + intros [H1 H2]. rewrite Z.mod_small in H2 by lia. subst; auto.
  - change (pow256 1) with 256 in *. split.
    + destruct ((b =? 0) || (b =? 1)) eqn:Eb; intros H; inversion H; subst.
      split; auto. apply Z.mod_small; lia.
    + intros [H1 H2]. rewrite Z.mod_small in H2 by lia. subst. rewrite H1; auto.
Qed.

Lemma wire_scalar_enc o s z : wire_scalar o s z = wire_enc o (ssize s) (sc_bits s z).
Proof. destruct o; reflexivity. Qed.

(** One scalar: loading and the wire encoding are inverse. *)
Lemma load_scalar_iff c s mem v : (0 < ssize s)%nat ->
  Forall byte_ok mem -> length mem = ssize s ->
  load c (TScalar s) mem = Some v <-> ct_ok (TScalar s) v /\ mem = enc_ct (c_wire c) (TScalar s) v.
Proof.
  intros Hw Hm Hl. simpl. rewrite <- Hl, load_bits_wire by auto.
  pose proof (wire_dec_bound (c_wire c) mem Hm) as Hb. rewrite Hl in Hb.
  split.
  - destruct (sc_of_bits s (wire_dec (c_wire c) mem)) as [z|] eqn:E; intros H; inversion H; subst.
    apply sc_of_bits_iff in E; auto. destruct E as [E1 E2]. split; auto.
    rewrite wire_scalar_enc, E2, <- Hl, wire_enc_dec; auto.
  - destruct v; try (now intros [[] _]). intros [H1 H2].
    rewrite wire_scalar_enc in H2.
    assert (E : sc_of_bits s (wire_dec (c_wire c) mem) = Some z).
    { apply sc_of_bits_iff; auto. split; auto.
      rewrite H2, wire_dec_enc, Z.mod_small; auto. apply sc_bits_range. }
    rewrite E. auto.
Qed.

(** ** Lists of encodings *)

Lemma sequence_some {A} (l : list (option A)) r :
  sequence l = Some r <-> l = map Some r.
Proof.
  revert r. induction l as [|[a|] l IH]; intros [|x r]; simpl; split; intros H;
    try discriminate; auto; try (inversion H; fail).
  - destruct (sequence l); discriminate.
  - destruct (sequence l) eqn:E; inversion H; subst. f_equal. apply IH; auto.
  - inversion H; subst. rewrite (proj2 (IH r)); auto.
Qed.

Lemma sequence_map_some {A B} (f : A -> option B) l r :
  sequence (map f l) = Some r <-> Forall2 (fun a b => f a = Some b) l r.
Proof.
  revert r. induction l; intros r; simpl.
  - split; intros H; [inversion H; constructor|inversion H; auto].
  - destruct (f a) eqn:E.
    + destruct (sequence (map f l)) eqn:Es.
      * split; intros H; inversion H; subst.
        -- constructor; auto. apply IHl; auto.
        -- rewrite E in H2. inversion H2; subst. f_equal. f_equal.
           apply IHl in H4. inversion H4; auto.
      * split; intros H; inversion H; subst. apply IHl in H4. discriminate.
    + split; intros H; inversion H; subst. congruence.
Qed.

Lemma chunks_length w n l : length (chunks w n l) = n.
Proof. revert l; induction n; simpl; auto. Qed.

Lemma chunks_Forall w n : forall l, length l = (n * w)%nat -> Forall byte_ok l ->
  Forall (fun ch => length ch = w /\ Forall byte_ok ch) (chunks w n l).
Proof.
  induction n; intros l Hl Hb; simpl; constructor.
  - split.
    + rewrite firstn_length. simpl in Hl. lia.
    + apply Forall_firstn; auto.
  - apply IHn.
    + rewrite skipn_length. simpl in Hl. lia.
    + apply Forall_skipn; auto.
Qed.

Lemma concat_chunks w n : forall l, length l = (n * w)%nat -> concat (chunks w n l) = l.
Proof.
  induction n; intros l Hl; simpl.
  - destruct l; auto; discriminate.
  - rewrite IHn.
    + apply firstn_skipn.
    + rewrite skipn_length. simpl in Hl. lia.
Qed.

Lemma chunks_concat w n : forall chs, length chs = n ->
  Forall (fun ch => length ch = w) chs -> chunks w n (concat chs) = chs.
Proof.
  induction n; intros [|ch chs] Hl Hw; simpl in *; try discriminate; auto.
  inversion Hw; subst.
  rewrite firstn_app, Nat.sub_diag, firstn_all. simpl.
  rewrite skipn_app, skipn_all, Nat.sub_diag. simpl. rewrite app_nil_r.
  f_equal. apply IHn; auto.
Qed.

Lemma flat_map_concat_map' {A B} (f : A -> list B) l : flat_map f l = concat (map f l).
Proof. apply flat_map_concat_map. Qed.

(** Floating-point numbers are stored like unsigned integers. *)
Lemma ct_ok_float w v : ct_ok (TFloat w) v <->
  exists z, v = VF w z /\ ct_ok (TScalar (SInt w false)) (VZ z).
Proof.
  simpl. split.
  - destruct v; try tauto. intros [-> H]. exists z. split; auto.
    apply andb_true_intro. split; [apply Z.leb_le|apply Z.ltb_lt]; lia.
  - intros (z & -> & H). apply andb_true_iff in H. destruct H as [H1 H2].
    apply Z.leb_le in H1. apply Z.ltb_lt in H2. auto.
Qed.

Lemma load_float c w mem :
  load c (TFloat w) mem =
  match load c (TScalar (SInt w false)) mem with Some (VZ z) => Some (VF w z) | _ => None end.
Proof. reflexivity. Qed.

Lemma ffmt_pos w : match ffmt w with Some _ => true | None => false end = true -> (0 < w)%nat.
Proof. destruct w; [discriminate|lia]. Qed.

(** Constant-size types: loading and the wire encoding are inverse. *)

Lemma enc_ct_length o t : forall v, ct_ok t v -> length (enc_ct o t v) = csize t.
Proof.
  induction t; intros v H; destruct v; simpl in H; try contradiction.
  - simpl. rewrite wire_scalar_enc. apply wire_enc_length.
  - destruct H as [Hl H]. cbn [enc_ct csize]. subst n.
    induction l; simpl; auto. inversion H; subst. rewrite app_length, IHt, IHl; auto.
  - destruct H as [Hl H]. simpl. rewrite map_length. auto.
  - simpl. rewrite wire_scalar_enc. apply wire_enc_length.
Qed.

Lemma enc_ct_bytes o t : forall v, ct_ok t v -> Forall byte_ok (enc_ct o t v).
Proof.
  induction t; intros v H; destruct v; simpl in H; try contradiction.
  - simpl. rewrite wire_scalar_enc. apply wire_enc_bytes.
  - destruct H as [Hl H]. cbn [enc_ct]. clear Hl.
    induction l; simpl; [constructor|]. inversion H; subst. apply Forall_app; split; auto.
  - destruct H as [Hl H]. simpl. clear Hl.
    induction H as [|x l [z [-> Hz]] H IH]; simpl; constructor; auto.
  - simpl. rewrite wire_scalar_enc. apply wire_enc_bytes.
Qed.

Lemma load_iff c t : ct_wf t = true -> forall mem v,
  Forall byte_ok mem -> length mem = csize t ->
  load c t mem = Some v <-> ct_ok t v /\ mem = enc_ct (c_wire c) t v.
Proof.
  induction t; intros Hwf mem v Hm Hl.
  - apply load_scalar_iff; auto. simpl in Hwf. apply Nat.ltb_lt; auto.
  - cbn [ct_wf csize] in *. apply andb_true_iff in Hwf. destruct Hwf as [Hn Hwf].
    specialize (IHt Hwf).
    cbn [load]. split.
    + destruct (sequence _) as [vs|] eqn:E; intros H; inversion H; subst; clear H.
      apply sequence_map_some in E.
      pose proof (chunks_Forall _ _ _ Hl Hm) as Hc.
      assert (Hlen : length vs = n)
        by (apply Forall2_len in E; rewrite chunks_length in E; auto).
      assert (Hboth : Forall (ct_ok t) vs /\
        concat (chunks (csize t) n mem) = flat_map (enc_ct (c_wire c) t) vs).
      { clear Hm Hl Hlen. revert Hc. induction E as [|ch x chs xs Hx E IH]; intros Hc; simpl.
        - split; auto.
        - inversion Hc as [|? ? [Hch1 Hch2] Hc']; subst.
          destruct (IH Hc') as [I1 I2].
          apply IHt in Hx; auto. destruct Hx as [Hx1 Hx2].
          split; [constructor; auto|]. rewrite I2. congruence. }
      rewrite concat_chunks in Hboth by auto. destruct Hboth as [B1 B2].
      split; [split; auto|]. exact B2.
    + destruct v; try (now intros [[] _]). intros [[Hlen Hok] Hmem].
      assert (E : sequence (map (load c t) (chunks (csize t) n mem)) = Some l).
      { apply sequence_map_some.
        cbn [enc_ct] in Hmem. rewrite Hmem, flat_map_concat_map, chunks_concat.
        - clear -IHt Hok. induction Hok as [|v l Hv H IH]; simpl; constructor; auto.
          apply IHt; auto. + apply enc_ct_bytes; auto. + apply enc_ct_length; auto.
        - rewrite map_length; auto.
        - apply Forall_map. eapply Forall_impl; [|exact Hok].
          intros. apply enc_ct_length; auto. }
      rewrite E. auto.
  - cbn [load csize enc_ct] in *. split.
    + intros H; inversion H; subst; clear H. split.
      * split; [rewrite map_length; auto|].
        apply Forall_map. eapply Forall_impl; [|exact Hm]. eauto.
      * rewrite map_map, map_id. auto.
    + destruct v; try (now intros [[] _]). intros [[Hlen Hok] Hmem]. subst mem.
      do 2 f_equal. rewrite map_map. clear -Hok.
      induction Hok as [|x l [z [-> Hz]] H IH]; simpl; auto. f_equal; auto.
  - apply ffmt_pos in Hwf. rewrite load_float, ct_ok_float.
    assert (L := fun x => load_scalar_iff c (SInt w false) mem x Hwf Hm Hl). split.
    + destruct (load c (TScalar (SInt w false)) mem) as [[]|] eqn:E; try discriminate.
      intros H; inversion H; subst; clear H.
      destruct (proj1 (L _) eq_refl) as [L1 L2]. split; [eauto|exact L2].
    + intros [(z & -> & H1) H2]. rewrite (proj2 (L (VZ z)) (conj H1 H2)). reflexivity.
Qed.

Lemma repeat_Forall_eq {A} (a : A) n l :
  l = repeat a n <-> length l = n /\ Forall (fun x => x = a) l.
Proof.
  revert n. induction l; intros [|n]; simpl; split; intros H; try discriminate; auto.
  - destruct H; discriminate.
  - destruct H; discriminate.
  - inversion H; subst. split.
    + f_equal. apply repeat_length.
    + constructor; auto. apply (IHl n); auto.
  - destruct H as [H1 H2]. inversion H2; subst. f_equal. apply IHl. split; auto.
Qed.

(** Overlaying on zeros. *)
Lemma overlay_eq w n bs full : length bs = n -> (n <= w)%nat -> length full = w ->
  overlay w bs = full <-> bs = firstn n full /\ Forall (fun b => b = 0) (skipn n full).
Proof.
  intros Hb Hn Hf. unfold overlay. rewrite Hb. split.
  - intros <-. rewrite firstn_app, skipn_app, Hb, Nat.sub_diag. simpl.
    rewrite firstn_all2, skipn_all2, app_nil_r by lia. split; auto.
    apply Forall_forall. intros x Hx. apply repeat_spec in Hx. auto.
  - intros [H1 H2]. rewrite <- (firstn_skipn n full), <- H1. f_equal.
    symmetry. apply repeat_Forall_eq. split; auto. rewrite skipn_length. lia.
Qed.

Lemma overlay_bytes w bs : Forall byte_ok bs -> Forall byte_ok (overlay w bs).
Proof.
  intros H. unfold overlay. apply Forall_app. split; auto.
  apply Forall_forall. intros x Hx. apply repeat_spec in Hx. subst. unfold byte_ok. lia.
Qed.

Lemma overlay_length w bs : (length bs <= w)%nat -> length (overlay w bs) = w.
Proof. intros. unfold overlay. rewrite app_length, repeat_length. lia. Qed.

(** The bytes of a fixed-size field. *)
Lemma load_overlay_iff c t n bs v : ct_wf t = true -> (n <= csize t)%nat ->
  Forall byte_ok bs -> length bs = n ->
  load c t (overlay (csize t) bs) = Some v <->
  (ct_ok t v /\ representable (c_wire c) t n v) /\ bs = firstn n (enc_ct (c_wire c) t v).
Proof.
  intros Hwf Hn Hb Hl.
  rewrite load_iff; auto using overlay_bytes.
  2: apply overlay_length; lia.
  unfold representable. split.
  - intros [H1 H2]. apply overlay_eq with (n := n) in H2; auto.
    + tauto.
    + apply enc_ct_length; auto.
  - intros [[H1 H2] H3]. split; auto. apply overlay_eq with (n := n); auto.
    apply enc_ct_length; auto.
Qed.
