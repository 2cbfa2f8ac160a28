(** * C91, C92: type ids by type, meta::invoke, static_array *)
From Verif Require Import MetaSpec MetaFacts.
Import ListNotations.

(** ** C91: a type keeps the id of its first mention, a new type gets the next one, and
    the 1026th is refused. *)
Theorem C91_ids : forall szw, (2 <= szw)%nat -> exists F, forall fuel ts t, (F <= fuel)%nat -> NoDup ts ->
  (forall i, nth_error ts i = Some t ->
     type_id szw fuel (numbered ts) t = Some (Z.of_nat i, numbered ts)) /\
  (~ In t ts -> (length ts <= 1024)%nat ->
     type_id szw fuel (numbered ts) t = Some (Z.of_nat (length ts), numbered (ts ++ [t]))) /\
  (~ In t ts -> (1025 <= length ts)%nat -> type_id szw fuel (numbered ts) t = None) /\
  (forall i, type_of (numbered ts) (Z.of_nat i) = nth_error ts i).
Proof.
  intros szw Hs. destruct (id_new szw Hs) as (F & HF). exists (Nat.max F 1024).
  intros fuel ts t Hfu Hd. split; [intros i; exact (id_known szw fuel ts i t Hd)|]. split.
  { intros Hn HL. apply HF; auto. apply Nat.le_trans with (Nat.max F 1024); auto. apply Nat.le_max_l. }
  split; [|exact (type_of_numbered ts)].
  intros Hn HL. apply id_none; auto. apply Nat.le_trans with (Nat.max F 1024); auto. apply Nat.le_max_r.
Qed.
Print Assumptions C91_ids.

(** [invoke<Trait>(type_id<T>)] is [Trait<T>::value]. *)
Theorem C91_value : forall szw, (2 <= szw)%nat -> exists F, forall fuel tr ts fresh i t v, (F <= fuel)%nat ->
  NoDup ts -> ~ In fresh ts -> (length ts <= 1024)%nat ->
  (forall u, In u ts -> to_value tr u) -> nth_error ts i = Some t -> tr t = HasValue v ->
  invoke szw fuel tr (numbered ts) fresh (Z.of_nat i) = Some (AValue v, numbered (ts ++ [fresh])).
Proof. exact invoke_value. Qed.
Print Assumptions C91_value.

(** Or the id of [Trait<T>::type]; the types all known types are mapped to have then been
    mentioned, and there must be room for them. *)
Theorem C91_type : forall szw, (2 <= szw)%nat -> exists F, forall fuel tr ts fresh i t u, (F <= fuel)%nat ->
  NoDup ts -> ~ In fresh ts -> (length ts <= 1024)%nat ->
  (forall u, In u ts -> to_type tr u) -> nth_error ts i = Some t -> tr t = HasType u ->
  let ts' := fold_left mention (images tr ts) (ts ++ [fresh]) in
  ((length ts' <= 1025)%nat -> exists j, nth_error ts' j = Some u /\
     invoke szw fuel tr (numbered ts) fresh (Z.of_nat i) = Some (AnId (Z.of_nat j), numbered ts')) /\
  ((1025 < length ts')%nat -> invoke szw fuel tr (numbered ts) fresh (Z.of_nat i) = None).
Proof. exact invoke_type. Qed.
Print Assumptions C91_type.

(** There is no other way to get an answer: the trait must have the same member for every
    type that has an id, not only for the one asked about. *)
Theorem C91_only : forall szw, (2 <= szw)%nat -> exists F, forall fuel tr ts fresh i a R, (F <= fuel)%nat ->
  NoDup ts -> ~ In fresh ts ->
  invoke szw fuel tr (numbered ts) fresh i = Some (a, R) ->
  (exists k t, i = Z.of_nat k /\ nth_error ts k = Some t) /\
  ((forall u, In u ts -> to_value tr u) \/ (forall u, In u ts -> to_type tr u)).
Proof. exact invoke_only. Qed.
Print Assumptions C91_only.

(** The closure type must be new: with one that has an id, later types have no answer. *)
Theorem C91_stale : forall szw fuel tr ts n T i, NoDup ts -> nth_error ts n = Some T -> (n <= i)%nat ->
  invoke szw fuel tr (numbered ts) T (Z.of_nat i) = None.
Proof. exact invoke_stale. Qed.
Print Assumptions C91_stale.

(** test/internals/traits_ct.cpp:138-144 with 0 = void, 1 = int, 2 = const int, 3 = int*;
    and [std::underlying_type] of an enumeration, refused because int has an id. *)
Definition t_is_const (t : cxx) : trait_of := HasValue (if Nat.eqb t 2 then 1 else 0).
Definition t_remove_pointer (t : cxx) : trait_of := HasType (if Nat.eqb t 3 then 1%nat else t).
Definition t_underlying (t : cxx) : trait_of := if Nat.eqb t 7 then HasType 1%nat else HasNeither.

Example C91_case :
  NoDup [0; 1; 2; 3]%nat /\ ~ In 9%nat [0; 1; 2; 3]%nat /\
  (forall u, In u [0; 1; 2; 3]%nat -> to_type t_remove_pointer u) /\
  invoke 8 100 t_is_const (numbered [0; 1; 2]%nat) 9%nat 2 = Some (AValue 1, numbered [0; 1; 2; 9]%nat) /\
  invoke 8 100 t_is_const (numbered [0; 1; 2]%nat) 9%nat 1 = Some (AValue 0, numbered [0; 1; 2; 9]%nat) /\
  invoke 8 100 t_remove_pointer (numbered [0; 1; 2; 3]%nat) 9%nat 3
    = Some (AnId 1, numbered [0; 1; 2; 3; 9]%nat) /\
  invoke 8 100 t_remove_pointer (numbered [0; 3]%nat) 9%nat 1 = Some (AnId 3, numbered [0; 3; 9; 1]%nat) /\
  invoke 8 100 t_underlying (numbered [7]%nat) 9%nat 0 = Some (AnId 2, numbered [7; 9; 1]%nat) /\
  invoke 8 100 t_underlying (numbered [1; 7]%nat) 9%nat 1 = None.
Proof.
  split; [repeat constructor; simpl; intuition discriminate|].
  split; [simpl; intuition discriminate|].
  split; [intros u _; unfold to_type, t_remove_pointer; eauto|].
  repeat split; vm_compute; reflexivity.
Qed.

(** ** C92: [static_array] holds exactly its initialisers, and there must be as many as
    elements, at least one. *)
Theorem C92_array : forall A (zero : A) N es l,
  make_array zero N es = Some l <-> l = es /\ length es = N /\ (0 < N)%nat.
Proof. exact (@array_made). Qed.
Print Assumptions C92_array.

Theorem C92_access : forall A (zero : A) N es l, make_array zero N es = Some l ->
  (forall i, array_at l i = nth_error es i) /\
  array_walk l 0 (array_size N) = Some es /\
  array_size N = length es /\ array_capacity N = length es /\ array_empty N = false.
Proof.
  intros A zero N es l H. apply array_made in H. destruct H as (-> & <- & H).
  split; [reflexivity|]. split; [exact (array_walked es)|]. repeat split.
  unfold array_empty. destruct (length es); [inversion H|reflexivity].
Qed.
Print Assumptions C92_access.

Example C92_case : make_array 0 3 [7; 8; 9] = Some [7; 8; 9] /\ make_array 0 3 [7; 8] = None /\
  array_walk [7; 8; 9] 0 3 = Some [7; 8; 9].
Proof. repeat split. Qed.
