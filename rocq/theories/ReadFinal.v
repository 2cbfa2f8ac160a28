(** Assembled forms of the reader lemmas, as the property files state them. *)
From Coq Require Import ZifyBool ZifyNat.
From Verif Require Import PropDefs Typing BytesFacts ProgFacts ReadFacts ReadMore Indep ReadLemmas
  StreamFacts LayoutFacts Safety.

Lemma read_sound c fs bs vs rest : wf fs = true -> Forall byte_ok bs ->
  rmem (struct_cast c fs) bs = (Ok vs, rest) ->
  valid c fs vs /\ bs = enc_fields (c_wire c) fs vs ++ rest.
Proof. intros Hw Hb. apply struct_cast_correct; auto. Qed.

Lemma read_complete c fs vs rest : wf fs = true -> valid c fs vs ->
  rmem (struct_cast c fs) (enc_fields (c_wire c) fs vs ++ rest) = (Ok vs, rest).
Proof.
  intros Hw Hv. apply struct_cast_trailing with (rest := []). rewrite app_nil_r.
  apply struct_cast_correct; auto.
  - apply valid_bytes; auto.
  - rewrite app_nil_r. auto.
Qed.

Lemma read_constraints c fs bs vs rest : wf fs = true -> Forall byte_ok bs ->
  rmem (struct_cast c fs) bs = (Ok vs, rest) -> sat_fields fs vs.
Proof.
  intros Hw Hb H. apply struct_cast_correct in H; auto. destruct H as [H _].
  destruct valid_sat as (_ & Hs & _). eapply Hs; eauto.
Qed.

Lemma read_vocabulary c fs S alloc s r id s' ev : wf fs = true ->
  rrun S alloc (struct_cast c fs) s = (Err (r, id), s', ev) ->
  In id (f_ids fs) /\ r <> FoundContradictingLength /\
  (r = BufferExhaustion <-> exists n, In (EvRead n None) ev).
Proof.
  intros Hw Hr.
  destruct (rrun_all _ _ _ _ S alloc _ (struct_cast_all c fs Hw) _ _ _ _ Hr) as (_ & _ & He).
  destruct (He _ eq_refl) as [[[H1 H2] H3]|[[H1 H2] (n & ev' & ->)]]; simpl in *.
  - split; auto. split; [destruct H1 as [->|[->| ->]]; discriminate|].
    split; [destruct H1 as [->|[->| ->]]; discriminate|]. intros [n Hn]. exfalso; eapply H3; eauto.
  - subst. split; auto. split; [discriminate|]. split; auto. intros _. exists n.
    apply in_or_app; right; left; auto.
Qed.

Lemma read_alloc c fs S alloc s o s' ev n : wf fs = true ->
  rrun S alloc (struct_cast c fs) s = (o, s', ev) -> In (EvAlloc n) ev ->
  exists esz b len, In (esz, b) (containers_fields fs) /\ 0 <= len /\ n = len * esz /\
    n <= ceiling_of c b /\ n < 256 ^ Z.of_nat (c_szw c).
Proof.
  intros Hw Hr Hin.
  destruct (rrun_all _ _ _ _ S alloc _ (struct_cast_all c fs Hw) _ _ _ _ Hr) as (_ & Ha & _).
  apply Ha in Hin. destruct Hin as (esz & b & len & H1 & H2 & H3 & H4).
  exists esz, b, len. split; auto. split; [lia|]. split; auto. split; [exact H4|].
  assert (match b with Some m => m | None => c_dmax c end mod 256 ^ Z.of_nat (c_szw c)
          < 256 ^ Z.of_nat (c_szw c)) by (apply Z.mod_pos_bound; lia). lia.
Qed.

Lemma read_same_build c c' fs bs : same_build c c' -> wf fs = true -> Forall byte_ok bs ->
  fst (rmem (struct_cast c fs) bs) = fst (rmem (struct_cast c' fs) bs) /\
  (forall vs, fst (rmem (struct_cast c fs) bs) = Ok vs ->
     snd (rmem (struct_cast c fs) bs) = snd (rmem (struct_cast c' fs) bs)).
Proof.
  intros Hs Hw Hb. pose proof (struct_cast_sim c c' fs Hs Hw bs Hb) as H.
  destruct (rmem (struct_cast c fs) bs), (rmem (struct_cast c' fs) bs). simpl in *.
  tauto.
Qed.
