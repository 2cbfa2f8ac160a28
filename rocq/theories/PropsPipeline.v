(** * C104, C105: reading and writing as they are written *)
From Coq Require Import Lia.
From Verif Require Import Pipeline WPipeline PipelineFacts WPipelineFacts Typing Examples.
Local Open Scope Z_scope.

(** ** C104 *)

(** Every schema, allocator, host, byte order, mode, and stream that fills the buffer it is
    given: the same result, the same requests in the same order, the same stream afterwards. *)
Theorem C104_cast : forall S alloc c fs s, delivers S -> wf fs = true -> typed fs = true ->
  l_cast S alloc c fs s = rrun S alloc (struct_cast c fs) s.
Proof. intros S alloc c fs s HS. exact (literal_cast S alloc HS c fs s). Qed.
Print Assumptions C104_cast.

(** An object whose bytes were swapped in place is the object read in the other byte
    order; swapping again gives it back. *)
Theorem C104_swap : forall h t mem, length mem = csize t ->
  object h t (swapped t mem) = object (other h) t mem /\ swapped t (swapped t mem) = mem.
Proof. intros h t mem H. split; [exact (object_swapped h t mem H)|exact (swapped_twice t mem H)]. Qed.
Print Assumptions C104_swap.

(** A stream of bytes that keeps to its side of the contract; the packet of the other
    examples, read with both byte orders of the host, at compile time and at run time. *)
Definition masked_read (s : list Z) (n : Z) : option (list Z) * list Z :=
  if n <=? Z.of_nat (length s)
  then (Some (map (fun z => z mod 256) (firstn (Z.to_nat n) s)), skipn (Z.to_nat n) s) else (None, s).
Definition masked : istream := mkI (list Z) masked_read.

Example C104_masked : delivers masked.
Proof.
  intros s n bs s' H. simpl in H. unfold masked_read in H.
  destruct (Z.leb_spec n (Z.of_nat (length s))); inversion H; subst. split.
  - rewrite map_length. apply firstn_length_le. lia.
  - apply Forall_forall. intros x Hx. apply in_map_iff in Hx. destruct Hx as (y & <- & _).
    apply Z.mod_pos_bound. reflexivity.
Qed.

Example C104_case :
  (wf packet = true /\ typed packet = true) /\
  (forall h cx, fst (fst (l_cast masked grant (mkCfg h Big cx 8 16777216) packet packet_be)) = Ok packet_val) /\
  fst (fst (l_cast masked grant be64 packet (firstn 21 packet_be))) = Err (BufferExhaustion, "sel"%string) /\
  (let mem := [1; 2; 3; 4; 5; 6; 7; 8] in
   swapped (TArr 2 (TArr 2 (TScalar u16))) mem = [2; 1; 4; 3; 6; 5; 8; 7] /\
   object Little (TArr 2 (TArr 2 (TScalar u16))) mem <> object Big (TArr 2 (TArr 2 (TScalar u16))) mem).
Proof.
  split; [split; vm_compute; reflexivity|]. split; [intros [] []; vm_compute; reflexivity|].
  split; [vm_compute; reflexivity|]. split; [vm_compute; reflexivity|vm_compute; discriminate].
Qed.

(** ** C105 *)

(** Every schema, struct of its type, host, byte order, mode and output stream: the same
    result, the same calls to [write] with the same bytes, the same stream afterwards. *)
Theorem C105_cast : forall S c fs vs s, typed fs = true -> has_fields fs vs ->
  w_cast S c fs vs s = wrun S (stream_cast c fs vs) s.
Proof. intros S c fs vs s. exact (literal_write S c fs vs s). Qed.
Print Assumptions C105_cast.

(** A stream with room for some bytes. *)
Definition room : ostream :=
  mkO (list Z * nat) (fun s bs =>
    if Nat.leb (length (fst s) + length bs) (snd s) then (true, (fst s ++ bs, snd s)) else (false, s)).

Example C105_case :
  typed packet = true /\ has_fields packet packet_val /\
  (forall h cx, let r := w_cast room (mkCfg h Big cx 8 16777216) packet packet_val ([], 100%nat) in
     fst (fst r) = Ok tt /\ fst (snd (fst r)) = packet_be) /\
  (let r := w_cast room be64 packet packet_val ([], 21%nat) in
     fst (fst r) = Err (BufferExhaustion, "sel"%string) /\ fst (snd (fst r)) = firstn 21 packet_be).
Proof.
  split; [vm_compute; reflexivity|]. split.
  - cbn. repeat (first [split | constructor]); try reflexivity.
  - split; [intros [] []; vm_compute; auto|vm_compute; auto].
Qed.
