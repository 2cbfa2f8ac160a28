(** * The example program: proofs *)
From Coq Require Import ZifyBool ZifyNat Lia String.
From Verif Require Import HelloSpec BytesFacts LayoutFacts DegenFacts.
Import ListNotations.
Local Open Scope Z_scope.

Lemma digits_numeral f : forall n, 0 <= n < 10 ^ Z.of_nat (S f) -> numeral n (digits (S f) n).
Proof.
  induction f as [|f IH]; intros n Hn; cbn [digits]; destruct (n <? 10) eqn:E.
  1, 3: repeat split; [discriminate|repeat constructor; lia|cbn; intros H; f_equal; lia|cbn; lia].
  - change (10 ^ Z.of_nat 1) with 10 in Hn. lia.
  - change (if n / 10 <? 10 then [48 + n / 10] else digits f (n / 10 / 10) ++ [48 + (n / 10) mod 10])
      with (digits (S f) (n / 10)).
    replace (Z.of_nat (S (S f))) with (Z.of_nat (S f) + 1) in Hn by lia.
    rewrite Z.pow_add_r in Hn by lia. change (10 ^ 1) with 10 in Hn.
    assert (D := Z.div_mod n 10 ltac:(lia)). assert (M := Z.mod_pos_bound n 10 ltac:(lia)).
    destruct (IH (n / 10)) as (A1 & A2 & A3 & A4).
    { split; [apply Z.div_pos; lia|apply Z.div_lt_upper_bound; lia]. }
    set (q := digits (S f) (n / 10)) in *. clearbody q.
    repeat split.
    + destruct q; discriminate.
    + apply Forall_app. split; auto. repeat constructor; lia.
    + destruct q as [|d ds]; [congruence|]. cbn [hd app] in *.
      intros H. specialize (A3 H). inversion A3; subst. cbn in A4. lia.
    + rewrite fold_left_app, A4. cbn [fold_left]. lia.
Qed.

Lemma shown_numeral n : 0 <= n -> numeral n (shown_int n).
Proof.
  intros Hn. apply digits_numeral. split; auto.
  destruct (Z.eq_dec n 0) as [->|]; [reflexivity|].
  assert (L := Z.log2_spec n ltac:(lia)). assert (P := Z.log2_nonneg n).
  replace (Z.of_nat (S (Z.to_nat (Z.log2 n)))) with (Z.succ (Z.log2 n)) by lia.
  eapply Z.lt_le_trans; [apply L|]. apply Z.pow_le_mono_l. lia.
Qed.

Lemma prefix_enc n p : 0 <= n < 2 ^ 64 -> (prefix_of n p <-> p = le_enc 8 n).
Proof.
  intros Hn. split.
  - intros [L H]. apply (nth_ext _ _ 0 0); [rewrite le_enc_length; auto|].
    intros i Hi. rewrite L in Hi. rewrite H, le_enc_nth by auto.
    f_equal. f_equal. change 256 with (2 ^ 8). rewrite <- Z.pow_mul_r by lia. reflexivity.
  - intros ->. split; [apply le_enc_length|]. intros i Hi. rewrite le_enc_nth by auto.
    f_equal. f_equal. change 256 with (2 ^ 8). rewrite <- Z.pow_mul_r by lia. reflexivity.
Qed.

Lemma one_char c sg b : byte_ok b ->
  exists z, load c (TScalar (SInt 1 sg)) [b] = Some (VZ z) /\ z mod 256 = b.
Proof.
  intros Hb. unfold byte_ok in Hb.
  assert (E : load_bits c 1 [b] = b).
  { unfold load_bits. assert (mem_dec (c_host c) [b] = b) as -> by (destruct (c_host c); cbn; lia).
    destruct (is_host_order c); reflexivity. }
  cbn [load ssize]. rewrite E. unfold sc_of_bits. destruct sg; [|eexists; split; [reflexivity|apply Z.mod_small; lia]].
  eexists; split; [reflexivity|]. change (pow256 1) with 256.
  destruct (2 * b <? 256) eqn:B; [apply Z.mod_small; lia|].
  replace (b - 256) with (b + (-1) * 256) by lia. rewrite Z_mod_plus_full. apply Z.mod_small. lia.
Qed.

Lemma all_chars c sg : forall text, Forall byte_ok text -> exists vs,
  sequence (map (load c (TScalar (SInt 1 sg))) (chunks 1 (List.length text) text)) = Some vs /\
  map char_byte vs = text.
Proof.
  induction text as [|b text IH]; intros F; [exists []; auto|].
  inversion F; subst. destruct (IH H2) as (vs & E1 & E2).
  destruct (one_char c sg b H1) as (z & Z1 & Z2).
  exists (VZ z :: vs). cbn [List.length chunks firstn skipn map sequence].
  rewrite Z1, E1. split; auto. cbn. congruence.
Qed.

Lemma load_n c n : c_wire c = Little -> 0 <= n < 2 ^ 64 ->
  load c (TScalar (SInt 8 false)) (le_enc 8 n) = Some (VZ n).
Proof.
  intros HW Hn. cbn [load ssize sc_of_bits].
  assert (B := load_bits_wire c (le_enc 8 n) (le_enc_bytes 8 n)).
  rewrite le_enc_length, HW in B. cbn [wire_dec] in B. rewrite B, le_dec_enc, Z.mod_small; auto.
Qed.

Section Run.
Variable ur : file -> Z -> option (list Z) * file.
Variable c : cfg.
Variable sg : bool.
Variable alloc : Z -> bool.
Hypothesis HW : c_wire c = Little.
Hypothesis HC : c_cx c = false.
Hypothesis HS : c_szw c = 8%nat.
Hypothesis HM : 0 <= c_dmax c < 2 ^ 64.

Lemma no_len bs : (List.length bs < 8)%nat ->
  hello ur c sg alloc (Some bs) =
  Some (Returned 1 [] (codes "read failed: reason=0 at=len" ++ [10])).
Proof using Type.
  clear HS HM HW HC. intros L. unfold hello, struct_cast, message. cbn [read_fields read_ty].
  unfold read_fixed. cbn [csize ssize Nat.ltb Nat.leb rmaperr rbind rrun i_read file_istream].
  unfold file_read at 1. cbn [f_fail f_last f_pos f_buf skipn].
  destruct (Z.of_nat 8 <=? Z.of_nat (List.length bs)) eqn:E; [lia|]. reflexivity.
Qed.

Lemma with_len n rest : 0 <= n < 2 ^ 64 -> Forall byte_ok rest ->
  hello ur c sg alloc (Some (le_enc 8 n ++ rest)) =
  if c_dmax c <? n then
    Some (Returned 1 [] (codes "read failed: reason=4 at=text" ++ [10]))
  else if negb (alloc n) then Some Uncaught
  else if Z.of_nat (List.length rest) <? n then
    Some (Returned 1 [] (codes "read failed: reason=0 at=text" ++ [10]))
  else Some (Returned 0 (codes "len=" ++ shown_int n ++ codes " text=" ++
                         firstn (Z.to_nat n) rest ++ [10]) []).
Proof using HW HC HS HM.
  intros Hn Hb. unfold hello, struct_cast, message. cbn [read_fields read_ty].
  unfold read_fixed at 1. cbn [csize ssize Nat.ltb Nat.leb rmaperr rbind rrun i_read file_istream].
  unfold file_read at 1. cbn [f_fail f_last f_pos f_buf skipn].
  rewrite app_length, le_enc_length.
  destruct (Z.of_nat 8 <=? Z.of_nat (8 + List.length rest)) eqn:E; [|lia].
  rewrite Nat2Z.id, firstn_app, le_enc_length, Nat.sub_diag, firstn_O, app_nil_r.
  rewrite firstn_all2 by (rewrite le_enc_length; lia).
  rewrite overlay_full by apply le_enc_length.
  rewrite load_n by auto. cbn [rbind rcheck check rmaperr update].
  match goal with |- context [deduce_len c ?e ?l] => replace (deduce_len c e l) with (Some n) end.
  2: { unfold deduce_len. cbn. unfold to_size. rewrite HS, Z.mod_small; auto. }
  unfold read_var. change (Z.of_nat (csize (TScalar (SInt 1 sg)))) with 1.
  unfold len_allowed, ceiling, to_size. rewrite HS. rewrite (Z.mod_small (c_dmax c)) by auto.
  rewrite Z.div_1_r. destruct (c_dmax c <? n) eqn:Ec; [reflexivity|]. cbn [negb].
  unfold read_raw. rewrite HC. rewrite Z.mul_1_r. unfold to_size. rewrite HS, (Z.mod_small n) by auto.
  cbn [rbind rmaperr rrun]. destruct (alloc n); [|reflexivity]. cbn [negb i_read file_istream].
  unfold file_read at 1. cbn [f_fail f_last f_pos f_buf].
  rewrite skipn_app, le_enc_length, skipn_all2 by (rewrite le_enc_length; lia).
  cbn [app Nat.add Nat.sub skipn].
  destruct (Z.of_nat (List.length rest) <? n) eqn:El.
  { destruct (n <=? Z.of_nat (List.length rest)) eqn:E2; [lia|]. reflexivity. }
  destruct (n <=? Z.of_nat (List.length rest)) eqn:E2; [|lia].
  destruct (all_chars c sg (firstn (Z.to_nat n) rest)) as (vs & V1 & V2).
  { apply Forall_forall. intros x Hx. rewrite Forall_forall in Hb. apply Hb.
    rewrite <- (firstn_skipn (Z.to_nat n) rest). apply in_or_app. auto. }
  rewrite firstn_length_le in V1 by lia. change (csize (TScalar (SInt 1 sg))) with 1%nat.
  rewrite V1. cbn. rewrite V2.
  replace (Z.of_nat (List.length vs)) with n; [reflexivity|].
  rewrite <- (map_length char_byte vs), V2, firstn_length_le; lia.
Qed.

Lemma hello_runs : 
  hello ur c sg alloc None = Some (Returned 1 [] (codes "cannot open sample.bin" ++ [10])) /\
  (forall bs, (List.length bs < 8)%nat ->
     hello ur c sg alloc (Some bs) = Some (Returned 1 [] (codes "read failed: reason=0 at=len" ++ [10]))) /\
  (forall n p rest, 0 <= n < 2 ^ 64 -> prefix_of n p -> Forall byte_ok rest ->
     let ended := hello ur c sg alloc (Some (p ++ rest)) in
     (c_dmax c < n -> ended = Some (Returned 1 [] (codes "read failed: reason=4 at=text" ++ [10]))) /\
     (n <= c_dmax c -> alloc n = false -> ended = Some Uncaught) /\
     (n <= c_dmax c -> alloc n = true -> Z.of_nat (List.length rest) < n ->
        ended = Some (Returned 1 [] (codes "read failed: reason=0 at=text" ++ [10]))) /\
     (forall text tail, n <= c_dmax c -> alloc n = true ->
        rest = text ++ tail -> Z.of_nat (List.length text) = n ->
        exists ds, numeral n ds /\
          ended = Some (Returned 0 (codes "len=" ++ ds ++ codes " text=" ++ text ++ [10]) []))).
Proof using HW HC HS HM.
  split; [reflexivity|split; [apply no_len|]].
  intros n p rest Hn Hp Hb. apply prefix_enc in Hp; auto. subst p. cbv zeta.
  rewrite with_len by auto. repeat split.
  - intros H. destruct (c_dmax c <? n) eqn:E; [reflexivity|lia].
  - intros H A. destruct (c_dmax c <? n) eqn:E; [lia|]. rewrite A. reflexivity.
  - intros H A L. destruct (c_dmax c <? n) eqn:E; [lia|]. rewrite A. cbn [negb].
    destruct (Z.of_nat (List.length rest) <? n) eqn:E2; [reflexivity|lia].
  - intros text tail H A -> L. exists (shown_int n). split; [apply shown_numeral; lia|].
    destruct (c_dmax c <? n) eqn:E; [lia|]. rewrite A. cbn [negb].
    rewrite app_length.
    destruct (Z.of_nat (List.length text + List.length tail) <? n) eqn:E2; [lia|].
    rewrite <- L, Nat2Z.id, firstn_app, Nat.sub_diag, firstn_O, app_nil_r, firstn_all. reflexivity.
Qed.

Lemma hello_sample text : Forall byte_ok text -> Z.of_nat (List.length text) <= c_dmax c ->
  alloc (Z.of_nat (List.length text)) = true ->
  exists bs ds, sample_of text = Some bs /\ numeral (Z.of_nat (List.length text)) ds /\
    hello ur c sg alloc (Some bs) =
    Some (Returned 0 (codes "len=" ++ ds ++ codes " text=" ++ text ++ [10]) []).
Proof using HW HC HS HM.
  intros Hb Hm A. set (n := Z.of_nat (List.length text)) in *.
  assert (Hn : 0 <= n < 2 ^ 64) by lia.
  destruct hello_runs as (_ & _ & R).
  destruct (R n (le_enc 8 n) text Hn) as (_ & _ & _ & Q); [apply prefix_enc; auto|auto|].
  destruct (Q text [] Hm A) as (ds & D1 & D2); [rewrite app_nil_r; auto|reflexivity|].
  exists (le_enc 8 n ++ text), ds. split; auto.
  unfold sample_of. fold n. destruct (n <? 2 ^ 64) eqn:E; [reflexivity|lia].
Qed.
End Run.

Lemma every_file bs : Forall byte_ok bs -> (8 <= List.length bs)%nat ->
  exists n p rest, 0 <= n < 2 ^ 64 /\ prefix_of n p /\ bs = p ++ rest.
Proof.
  intros Hb L. assert (L8 : List.length (firstn 8 bs) = 8%nat) by (rewrite firstn_length_le; lia).
  assert (F : Forall byte_ok (firstn 8 bs)).
  { rewrite <- (firstn_skipn 8 bs) in Hb. apply Forall_app in Hb. tauto. }
  assert (B := le_dec_bound _ F). rewrite L8 in B. change (pow256 8) with (2 ^ 64) in B.
  exists (le_dec (firstn 8 bs)), (firstn 8 bs), (skipn 8 bs).
  split; [auto|split; [|symmetry; apply firstn_skipn]].
  apply prefix_enc; auto. rewrite <- L8 at 2. symmetry. rewrite le_enc_dec; auto.
Qed.

Definition value (ds : list Z) : Z := fold_left (fun a d => 10 * a + (d - 48)) ds 0.

Lemma value_snoc ds d : value (ds ++ [d]) = 10 * value ds + (d - 48).
Proof. unfold value. rewrite fold_left_app. reflexivity. Qed.

Lemma value_pos ds : ds <> [] -> Forall (fun d => 48 <= d <= 57) ds -> hd 0 ds <> 48 -> 0 < value ds.
Proof.
  induction ds as [|d ds IH] using rev_ind; intros N F H; [congruence|].
  rewrite value_snoc. apply Forall_app in F. destruct F as [F1 F2]. inversion F2; subst.
  destruct ds as [|e ds]; [cbn in *; lia|]. cbn [app hd] in H.
  assert (0 < value (e :: ds)) by (apply IH; auto; discriminate). lia.
Qed.

Lemma value_inj : forall ds es, Forall (fun d => 48 <= d <= 57) ds -> Forall (fun d => 48 <= d <= 57) es ->
  (ds <> [] -> hd 0 ds <> 48) -> (es <> [] -> hd 0 es <> 48) -> value ds = value es -> ds = es.
Proof.
  induction ds as [|d ds IH] using rev_ind; intros es F G H K E.
  - destruct es as [|e es]; auto. assert (0 < value (e :: es)) by (apply value_pos; auto; try apply K; discriminate).
    cbn in E. unfold value in *. cbn [fold_left] in *. lia.
  - destruct es as [|e es _] using rev_ind.
    + assert (0 < value (ds ++ [d])).
      { apply value_pos; auto; [|apply H]; destruct ds; discriminate. }
      unfold value in E at 2. cbn in E. lia.
    + rewrite !value_snoc in E. apply Forall_app in F, G. destruct F as [F1 F2], G as [G1 G2].
      inversion F2; inversion G2; subst.
      assert (d = e /\ value ds = value es) as [-> Q] by lia. f_equal. apply IH; auto.
      * intros N. destruct ds; [congruence|]. apply H. discriminate.
      * intros N. destruct es; [congruence|]. apply K. discriminate.
Qed.

Lemma numeral_one n ds es : numeral n ds -> numeral n es -> ds = es.
Proof.
  intros (A1 & A2 & A3 & A4) (B1 & B2 & B3 & B4). fold (value ds) in A4. fold (value es) in B4.
  destruct (Z.eq_dec (hd 0 ds) 48) as [D|D], (Z.eq_dec (hd 0 es) 48) as [E|E].
  - rewrite (A3 D), (B3 E). reflexivity.
  - rewrite (A3 D) in A4. assert (0 < value es) by (apply value_pos; auto). cbn in A4. lia.
  - rewrite (B3 E) in B4. assert (0 < value ds) by (apply value_pos; auto). cbn in B4. lia.
  - apply value_inj; auto. congruence.
Qed.
