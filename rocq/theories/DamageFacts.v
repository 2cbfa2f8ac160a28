(** Bytes damaged after a complete prefix of the struct (C37). *)
From Coq Require Import ZifyBool ZifyNat.
From Verif Require Import PropDefs ProgFacts ReadMore ReadLemmas ReadFinal Examples.

Lemma list_stream_rmem {E A} (p : rprog E A) : forall bs, exists ev,
  rrun list_stream grant p bs = (fst (rmem p bs), snd (rmem p bs), ev).
Proof.
  induction p; intros bs; cbn [rrun rmem]; try (eexists; reflexivity).
  - cbn [list_stream i_read]. unfold list_read.
    destruct (n <=? Z.of_nat (length bs)) eqn:En; [|cbn [fst snd]; eexists; reflexivity].
    destruct (H (firstn (Z.to_nat n) bs) (skipn (Z.to_nat n) bs)) as [ev Hev].
    rewrite Hev. eexists; reflexivity.
  - unfold grant at 1. destruct (IHp bs) as [ev Hev]. rewrite Hev. eexists; reflexivity.
Qed.

Lemma damage_read c fs gs vs z : wf (f_app fs gs) = true -> valid c fs vs ->
  match fst (rmem (struct_cast c (f_app fs gs)) (enc_fields (c_wire c) fs vs ++ z)) with
  | Ok ws => exists us, ws = vs ++ us /\ length us = f_len gs
  | Err (r, id) => In id (f_ids gs)
  | _ => True
  end.
Proof.
  intros Hwf Hv.
  assert (Hw : wf fs = true).
  { unfold wf in *. apply wf_fields_app in Hwf. tauto. }
  set (bs := _ ++ z).
  destruct (list_stream_rmem (struct_cast c fs) bs) as [ev1 H1].
  unfold bs in H1 at 2 3. rewrite (read_complete c fs vs z Hw Hv) in H1. cbn [fst snd] in H1.
  destruct (append_read c list_stream grant fs gs bs _ _ _ Hwf H1) as (o & s2 & ev2 & H2 & Ho & He).
  destruct (list_stream_rmem (struct_cast c (f_app fs gs)) bs) as [ev3 H3].
  rewrite H3 in H2. inversion H2; subst.
  destruct (fst _) as [ws|[r id]| | |]; auto. eapply He; reflexivity.
Qed.
