(** * C114: the order in which alternatives are listed *)
From Coq Require Import String.
From Verif Require Import Read Write Static WSpec Typing Laws MoreSpec DegenSpec CaseSpec CaseFacts Examples.
Import ListNotations.
Open Scope string_scope.
Open Scope list_scope.
Open Scope Z_scope.

(** Cases and alternatives of a variance listed in another order: every read makes the
    same calls and ends alike, but for the position under which the value is held.
    At most one case may apply. *)
Theorem C114_read : forall c p q t t' pre id post S alloc s,
  reordered p q t t' -> exclusive t ->
  wf (f_app pre (FCons id t CNone post)) = true -> wf (f_app pre (FCons id t' CNone post)) = true ->
  ~ In id (refs_fields post) ->
  rrun S alloc (struct_cast c (f_app pre (FCons id t' CNone post))) s =
  let '(o, s', ev) := rrun S alloc (struct_cast c (f_app pre (FCons id t CNone post))) s in
  (on_ok (at_pos (f_len pre) (renumber p)) o, s', ev).
Proof. exact reordered_read. Qed.
Print Assumptions C114_read.

(** Every write, too.  If the discriminant is a field, any number of cases may apply. *)
Theorem C114_write : forall c p q t t' pre id post S s ws,
  reordered p q t t' -> exclusive t \/ from_field t ->
  wf (f_app pre (FCons id t CNone post)) = true -> wf (f_app pre (FCons id t' CNone post)) = true ->
  ~ In id (refs_fields post) ->
  has_fields (f_app pre (FCons id t CNone post)) ws ->
  wrun S (stream_cast c (f_app pre (FCons id t' CNone post)) (at_pos (f_len pre) (renumber p) ws)) s =
  wrun S (stream_cast c (f_app pre (FCons id t CNone post)) ws) s.
Proof. exact reordered_write. Qed.
Print Assumptions C114_write.

(** The check for distinct match values does not see the order. *)
Theorem C114_unique : forall szw p q g al g' al',
  reordered p q (FUnion g al) (FUnion g' al') -> values_unique szw g' = values_unique szw g.
Proof. exact reordered_unique. Qed.
Print Assumptions C114_unique.

(** In an accepted switch at most one case applies, if its match values are all values of
    the discriminant's type, or all of one type of their own. *)
Theorem C114_exclusive : forall szw t s cs,
  switch_of t s cs -> one_type s cs -> accepted_ty szw CNone t = true -> exclusive t.
Proof. exact unique_exclusive. Qed.
Print Assumptions C114_exclusive.

(** ** Three cases in another order, before a length and its container *)

Definition cs_pre : fields := FCons "d" (fixed u8) CNone (FCons "n" (fixed u8) CNone FNil).
Definition cs_post : fields := FCons "xs" (FVar (TScalar u8) (LenField "n") None) CNone FNil.
Definition cs t : fields := f_app cs_pre (FCons "q" t CNone cs_post).
Definition cs_p (i : nat) : nat := match i with O => 2%nat | S O => 0%nat | _ => 1%nat end.
Definition cs_q (i : nat) : nat := match i with O => 1%nat | S O => 2%nat | _ => 0%nat end.
Definition cs_a : alts :=
  ACons (fixed u8) CNone (ACons (fixed u16) (CCmp OLt i32 300)
 (ACons (FVar (TScalar u8) (LenField "n") None) CNone ANil)).
Definition cs_b : alts :=
  ACons (fixed u16) (CCmp OLt i32 300) (ACons (FVar (TScalar u8) (LenField "n") None) CNone
 (ACons (fixed u8) CNone ANil)).
Definition cs_is (z : Z) (vs : list val) : bool :=
  match vs with [VZ y] => y =? z | _ => false end.
Definition cs_d (vs : list val) : Z := match vs with [VZ y] => y | _ => 0 end.
Definition cs_field1 : fty := FUnion (GField "d" u8 [(i32, 1); (u8, 2); (u64, 7)]) cs_a.
Definition cs_field2 : fty := FUnion (GField "d" u8 [(u8, 2); (u64, 7); (i32, 1)]) cs_b.
Definition cs_comp1 : fty := FUnion (GComp cs_d i32 ["d"] [(i32, 1); (i32, 2); (i32, -7)]) cs_a.
Definition cs_comp2 : fty := FUnion (GComp cs_d i32 ["d"] [(i32, 2); (i32, -7); (i32, 1)]) cs_b.
Definition cs_ladder1 : fty := FUnion (GLadder [(cs_is 1, ["d"]); (cs_is 2, ["d"]); (cs_is 7, ["d"])]) cs_a.
Definition cs_ladder2 : fty := FUnion (GLadder [(cs_is 2, ["d"]); (cs_is 7, ["d"]); (cs_is 1, ["d"])]) cs_b.

Lemma cs_shuffle : shuffle 3 cs_p cs_q.
Proof. intros [|[|[|i]]] H; cbn; repeat split; lia. Qed.

Ltac cs_moved := let H := fresh in
  split; [reflexivity|split; [reflexivity|intros [|[|[|?]]] H; try reflexivity; exfalso; cbn in H; lia]].

Lemma cs_reordered g g' : guide_moved 3 cs_p g g' -> reordered cs_p cs_q (FUnion g cs_a) (FUnion g' cs_b).
Proof.
  intros H. exists g, cs_a, g', cs_b. split; [reflexivity|]. split; [reflexivity|].
  split; [exact cs_shuffle|]. split; [exact H|]. cs_moved.
Qed.

Example C114_case :
  reordered cs_p cs_q cs_field1 cs_field2 /\ exclusive cs_field1 /\
  reordered cs_p cs_q cs_comp1 cs_comp2 /\ exclusive cs_comp1 /\
  reordered cs_p cs_q cs_ladder1 cs_ladder2 /\ exclusive cs_ladder1 /\
  forallb wf (map cs [cs_field1; cs_field2; cs_comp1; cs_comp2; cs_ladder1; cs_ladder2]) = true /\
  refs_fields cs_post = ["n"] /\
  has_fields (cs cs_field1) [VZ 0; VZ 0; VAlt 1 (VZ 258); VSeq [VZ 5; VZ 6]].
Proof.
  split; [apply cs_reordered; constructor; cs_moved|].
  split. { apply (C114_exclusive 8 cs_field1 u8 [(i32, 1); (u8, 2); (u64, 7)]); [constructor| |vm_compute; reflexivity].
           left. repeat constructor. }
  split; [apply cs_reordered; constructor; cs_moved|].
  split. { apply (C114_exclusive 8 cs_comp1 i32 [(i32, 1); (i32, 2); (i32, -7)]); [constructor| |vm_compute; reflexivity].
           right. exists i32. repeat constructor. }
  split; [apply cs_reordered; constructor; cs_moved|].
  split.
  { cbn. intros E i j (b & vs & A & B & D) (b' & vs' & A' & B' & D').
    assert (X : forall i b vs, nth_error [(cs_is 1, ["d"]); (cs_is 2, ["d"]); (cs_is 7, ["d"])] i = Some b ->
      lookups E (snd b) = Some vs -> fst b vs = true ->
      exists z, lookup E "d" = Some (VZ z) /\ (i = 0%nat /\ z = 1 \/ i = 1%nat /\ z = 2 \/ i = 2%nat /\ z = 7)).
    { clear. intros i b vs N L H.
      destruct i as [|[|[|i]]]; cbn [nth_error] in N; [| | |destruct i; discriminate]; injection N as <-;
        cbn [fst snd lookups] in *; destruct (lookup E "d") as [[]|]; try discriminate;
        injection L as <-; cbn in H; try discriminate; apply Z.eqb_eq in H; subst; eauto 8. }
    destruct (X _ _ _ A B D) as (z & Ez & H). destruct (X _ _ _ A' B' D') as (z' & Ez' & H').
    assert (z = z') by congruence. lia. }
  split; [vm_compute; reflexivity|]. split; [reflexivity|]. has_it.
Qed.

Example C114_runs :
  rmem (struct_cast le64 (cs cs_field1)) [2; 2; 2; 1; 5; 6] =
    (Ok [VZ 2; VZ 2; VAlt 1 (VZ 258); VSeq [VZ 5; VZ 6]], []) /\
  rmem (struct_cast le64 (cs cs_field2)) [2; 2; 2; 1; 5; 6] =
    (Ok [VZ 2; VZ 2; VAlt 0 (VZ 258); VSeq [VZ 5; VZ 6]], []) /\
  rmem (struct_cast le64 (cs cs_ladder1)) [7; 2; 2; 1; 5; 6] =
    (Ok [VZ 7; VZ 2; VAlt 2 (VSeq [VZ 2; VZ 1]); VSeq [VZ 5; VZ 6]], []) /\
  rmem (struct_cast le64 (cs cs_ladder2)) [7; 2; 2; 1; 5; 6] =
    (Ok [VZ 7; VZ 2; VAlt 1 (VSeq [VZ 2; VZ 1]); VSeq [VZ 5; VZ 6]], []) /\
  wmem (stream_cast le64 (cs cs_field1) [VZ 0; VZ 0; VAlt 1 (VZ 258); VSeq [VZ 5; VZ 6]]) =
    (Ok tt, [2; 2; 2; 1; 5; 6]) /\
  wmem (stream_cast le64 (cs cs_field2) [VZ 0; VZ 0; VAlt 0 (VZ 258); VSeq [VZ 5; VZ 6]]) =
    (Ok tt, [2; 2; 2; 1; 5; 6]).
Proof. vm_compute. auto 10. Qed.

(** ** Where the order matters *)

(** Distinct match values need not exclude each other: [-1] and [0xFFFFFFFF] both equal
    an unsigned [0xFFFFFFFF].  The library accepts both orders, and reads differently. *)
Definition tw_p (i : nat) : nat := match i with O => 1%nat | _ => 0%nat end.
Definition tw t : fields := FCons "d" (fixed u32) CNone (FCons "q" t CNone FNil).
Definition tw1 : fty := FUnion (GField "d" u32 [(i32, -1); (u32, 0xFFFFFFFF)])
  (ACons (fixed u8) CNone (ACons (fixed u16) CNone ANil)).
Definition tw2 : fty := FUnion (GField "d" u32 [(u32, 0xFFFFFFFF); (i32, -1)])
  (ACons (fixed u16) CNone (ACons (fixed u8) CNone ANil)).

Theorem C114_order_refuted : exists t t' bs,
  reordered tw_p tw_p t t' /\ accepted 8 (tw t) = true /\ accepted 8 (tw t') = true /\
  rmem (struct_cast le64 (tw t')) bs <>
  (let '(o, rest) := rmem (struct_cast le64 (tw t)) bs in (on_ok (at_pos 1 (renumber tw_p)) o, rest)).
Proof.
  exists tw1, tw2, [255; 255; 255; 255; 7; 9]. split.
  { exists (GField "d" u32 [(i32, -1); (u32, 0xFFFFFFFF)]), (ACons (fixed u8) CNone (ACons (fixed u16) CNone ANil)),
      (GField "d" u32 [(u32, 0xFFFFFFFF); (i32, -1)]), (ACons (fixed u16) CNone (ACons (fixed u8) CNone ANil)).
    split; [reflexivity|]. split; [reflexivity|].
    split. { intros [|[|i]] H; cbn in *; repeat split; lia. }
    split; [constructor|]; (split; [reflexivity|split; [reflexivity|intros [|[|i]] H; try reflexivity; exfalso; cbn in H; lia]]). }
  split; [vm_compute; reflexivity|]. split; [vm_compute; reflexivity|]. vm_compute. discriminate.
Qed.
Print Assumptions C114_order_refuted.

(** Overlapping branches: in one order a struct is written, in the other it is refused. *)
Definition ov_small (vs : list val) : bool := match vs with [VZ y] => y <? 100 | _ => false end.
Definition ov_tiny (vs : list val) : bool := match vs with [VZ y] => y <? 10 | _ => false end.
Definition ov1 : fty := FUnion (GLadder [(ov_small, ["d"]); (ov_tiny, ["d"])])
  (ACons (fixed u8) CNone (ACons (fixed u16) CNone ANil)).
Definition ov2 : fty := FUnion (GLadder [(ov_tiny, ["d"]); (ov_small, ["d"])])
  (ACons (fixed u16) CNone (ACons (fixed u8) CNone ANil)).

Theorem C114_overlap_refuted : exists t t' ws,
  reordered tw_p tw_p t t' /\ accepted 8 (tw t) = true /\ accepted 8 (tw t') = true /\
  has_fields (tw t) ws /\
  wmem (stream_cast le64 (tw t') (at_pos 1 (renumber tw_p) ws)) <> wmem (stream_cast le64 (tw t) ws).
Proof.
  exists ov1, ov2, [VZ 5; VAlt 1 (VZ 9)]. split.
  { exists (GLadder [(ov_small, ["d"]); (ov_tiny, ["d"])]), (ACons (fixed u8) CNone (ACons (fixed u16) CNone ANil)),
      (GLadder [(ov_tiny, ["d"]); (ov_small, ["d"])]), (ACons (fixed u16) CNone (ACons (fixed u8) CNone ANil)).
    split; [reflexivity|]. split; [reflexivity|].
    split. { intros [|[|i]] H; cbn in *; repeat split; lia. }
    split; [constructor|]; (split; [reflexivity|split; [reflexivity|intros [|[|i]] H; try reflexivity; exfalso; cbn in H; lia]]). }
  split; [vm_compute; reflexivity|]. split; [vm_compute; reflexivity|]. split; [has_it|]. vm_compute. discriminate.
Qed.
Print Assumptions C114_overlap_refuted.
