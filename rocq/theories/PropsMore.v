(** * Integer conversions, resource bounds, message sequences, reference streams,
    range constraints, containers

    [total_fields c own fs]: the sum over the schema of what each field costs by
    itself, [n] times for [n] records, as many times as fit under the ceiling for a
    vector of records, the maximum over the alternatives of a variant.
    [enc_msgs]: concatenated encodings.  [all_apart]: no two ranges overlap.
    (MoreSpec.v)  [read_msgs], [write_msgs]: casts one after the other until one
    fails.  (MoreDefs.v) *)
From Coq Require Import Permutation.
From Verif Require Import MoreDefs Typing Streams Examples.
From Verif Require Import Static StaticSpec StaticFacts Ranges.
From Verif Require Import ConvFacts TotalFacts AppendFacts SeqFacts RangeFacts ContFacts.
Local Open Scope list_scope.

(** ** C44: conversions and the built-in [==] on mixed integer types. *)
Theorem C44_conversion : forall w sg z, (0 < w)%nat ->
  let m := 2 ^ (8 * Z.of_nat w) in
  (exists q, conv (SInt w sg) z = z + q * m) /\
  (if sg then - (m / 2) <= conv (SInt w sg) z < m / 2 else 0 <= conv (SInt w sg) z < m).
Proof. exact conv_spec. Qed.
Print Assumptions C44_conversion.

Theorem C44_to_bool : forall z, conv SBool z = if z =? 0 then 0 else 1.
Proof. exact conv_bool. Qed.
Print Assumptions C44_to_bool.

(** Equality is congruence modulo the width of the wider type, [int] at least. *)
Theorem C44_equality : forall s1 z1 s2 z2,
  cxx_eq s1 z1 s2 z2 = true <->
  (z1 - z2) mod 2 ^ (8 * Z.max 4 (Z.max (Z.of_nat (ssize s1)) (Z.of_nat (ssize s2)))) = 0.
Proof. exact cxx_eq_congruent. Qed.
Print Assumptions C44_equality.

(** Hence equality of the numbers, when both have the same sign or both types are
    signed. *)
Theorem C44_equality_exact : forall s1 z1 s2 z2,
  sc_in s1 z1 = true -> sc_in s2 z2 = true -> (0 <= z1 /\ 0 <= z2) \/ (z1 < 0 /\ z2 < 0) ->
  (cxx_eq s1 z1 s2 z2 = true <-> z1 = z2).
Proof. exact cxx_eq_exact. Qed.
Print Assumptions C44_equality_exact.

Theorem C44_equality_signed : forall w1 z1 w2 z2,
  sc_in (SInt w1 true) z1 = true -> sc_in (SInt w2 true) z2 = true ->
  (cxx_eq (SInt w1 true) z1 (SInt w2 true) z2 = true <-> z1 = z2).
Proof. exact cxx_eq_signed. Qed.
Print Assumptions C44_equality_signed.

Theorem C44_mixed_signs_refuted : exists s1 z1 s2 z2,
  sc_in s1 z1 = true /\ sc_in s2 z2 = true /\ z1 <> z2 /\ cxx_eq s1 z1 s2 z2 = true.
Proof. exists i32, (-1), u32, 0xFFFFFFFF. repeat split; try reflexivity. discriminate. Qed.
Print Assumptions C44_mixed_signs_refuted.

Example C44_case :
  conv i8 200 = -56 /\ conv u8 (-1) = 255 /\ cxx_eq u8 255 i8 (-1) = false /\
  cxx_eq u32 0xFFFFFFFF i8 (-1) = true /\ cxx_eq u16 7 u64 7 = true.
Proof. vm_compute. auto. Qed.

(** ** C45: the memory requested by resizing containers over a whole read is bounded by
    the schema, on any stream.  (With the copies: C112_bound.) *)
Theorem C45_memory : forall c fs S alloc s o s' ev, wf fs = true ->
  rrun S alloc (struct_cast c fs) s = (o, s', ev) ->
  allocated ev <= total_fields c (own_memory c) fs.
Proof. exact memory_bound. Qed.
Print Assumptions C45_memory.

(** A vector of 2 records of 2 bytes with a string of at most 3 bytes each: the bound
    is 2 * 2 + 2 * 3, and is reached. *)
Definition entry : fields :=
  FCons "k" (fixed u8) CNone (FCons "s" (FVar (TScalar u8) (LenField "k") (Some 3)) CNone FNil).
Definition table : fields :=
  FCons "n" (fixed u8) CNone (FCons "es" (FVecRec entry 2 (LenField "n") (Some 4)) CNone FNil).

Example C45_case : wf table = true /\ total_fields le64 (own_memory le64) table = 10 /\
  allocated (snd (rrun list_stream grant (struct_cast le64 table) [2; 3; 1; 2; 3; 3; 4; 5; 6])) = 10.
Proof. vm_compute. auto. Qed.

(** ** C46: so are the number of requests made to the stream and the bytes
    requested. *)
Theorem C46_requests : forall c fs S alloc s o s' ev, wf fs = true ->
  rrun S alloc (struct_cast c fs) s = (o, s', ev) ->
  requests ev <= total_fields c (own_requests c) fs.
Proof. exact requests_bound. Qed.
Print Assumptions C46_requests.

Theorem C46_bytes : forall c fs S alloc s o s' ev, wf fs = true ->
  rrun S alloc (struct_cast c fs) s = (o, s', ev) ->
  requested ev <= total_fields c (own_bytes c) fs.
Proof. exact bytes_bound. Qed.
Print Assumptions C46_bytes.

Example C46_case :
  total_fields le64 (own_requests le64) table = 5 /\ total_fields le64 (own_bytes le64) table = 9 /\
  requests (snd (rrun list_stream grant (struct_cast le64 table) [2; 3; 1; 2; 3; 3; 4; 5; 6])) = 5 /\
  requested (snd (rrun list_stream grant (struct_cast le64 table) [2; 3; 1; 2; 3; 3; 4; 5; 6])) = 9.
Proof. vm_compute. auto. Qed.

(** ** C47: messages one after the other. *)
Theorem C47_read : forall c msgs rest,
  Forall (fun m => wf (fst m) = true /\ valid c (fst m) (snd m)) msgs ->
  rmem (read_msgs c (map fst msgs)) (enc_msgs (c_wire c) msgs ++ rest) = (Ok (map snd msgs), rest).
Proof. exact read_sequence. Qed.
Print Assumptions C47_read.

Theorem C47_read_only : forall c fss, Forall (fun fs => wf fs = true) fss -> forall bs vss rest,
  Forall byte_ok bs -> rmem (read_msgs c fss) bs = (Ok vss, rest) ->
  length vss = length fss /\ Forall (fun m => valid c (fst m) (snd m)) (combine fss vss) /\
  bs = enc_msgs (c_wire c) (combine fss vss) ++ rest.
Proof. exact read_sequence_sound. Qed.
Print Assumptions C47_read_only.

(** No encoding is the start of another one's. *)
Theorem C47_unambiguous : forall c fs vs ws x y, wf fs = true -> valid c fs vs -> valid c fs ws ->
  enc_fields (c_wire c) fs vs ++ x = enc_fields (c_wire c) fs ws ++ y -> vs = ws /\ x = y.
Proof. exact unambiguous. Qed.
Print Assumptions C47_unambiguous.

(** What was written in sequence reads back in sequence (guards as in C03). *)
Theorem C47_write_then_read : forall c msgs out rest,
  Forall (fun m => let '(fs, vs) := m in
    wf fs = true /\ typed fs = true /\ has_fields fs vs /\ clean_fields c fs = true /\
    in_sync c fs vs /\ sized_fields c fs (emitted c fs vs)) msgs ->
  wmem (write_msgs c msgs) = (Ok tt, out) ->
  rmem (read_msgs c (map fst msgs)) (out ++ rest) =
    (Ok (map (fun m => emitted c (fst m) (snd m)) msgs), rest).
Proof. exact write_read_sequence. Qed.
Print Assumptions C47_write_then_read.

Example C47_case :
  wmem (write_msgs le64 [(frame, frame_val); (point, [VZ 3; VZ 4])]) = (Ok tt, frame_le ++ [3; 0; 4]) /\
  rmem (read_msgs le64 [frame; point]) (frame_le ++ [3; 0; 4; 9]) =
    (Ok [emitted le64 frame frame_val; [VZ 3; VZ 4]], [9]).
Proof. vm_compute. auto. Qed.

(** ** C48: a range constraint accepts exactly the values in one of its ranges, when
    these do not overlap.  [out]: what sorting them may give. *)
Theorem C48_open : forall rs out v,
  sorted_from rs out -> Forall (fun r => r_a r < r_b r) rs -> all_apart rs ->
  (in_open out v = true <-> exists r, In r rs /\ r_a r < v < r_b r).
Proof. exact open_exact. Qed.
Print Assumptions C48_open.

Theorem C48_closed : forall rs out v,
  sorted_from rs out -> Forall (fun r => r_a r < r_b r) rs -> all_apart rs ->
  (in_closed out v = true <-> exists r, In r rs /\ r_a r <= v <= r_b r).
Proof. exact closed_exact. Qed.
Print Assumptions C48_closed.

(** What is accepted is in a range even if they overlap. *)
Theorem C48_open_sound : forall rs v, in_open rs v = true -> exists r, In r rs /\ r_a r < v < r_b r.
Proof. exact open_sound. Qed.
Print Assumptions C48_open_sound.

Theorem C48_closed_sound : forall rs v,
  in_closed rs v = true -> exists r, In r rs /\ r_a r <= v <= r_b r.
Proof. exact closed_sound. Qed.
Print Assumptions C48_closed_sound.

(** The binary search inside: the first element that is not below. *)
Theorem C48_lower_bound : forall A (below : A -> bool) d l,
  (forall i j, (i <= j)%nat -> (j < length l)%nat -> below (nth j l d) = true -> below (nth i l d) = true) ->
  let it := lower_bound (length l) below d l 0 (length l) in
  (it <= length l)%nat /\
  (forall i, (i < it)%nat -> below (nth i l d) = true) /\
  (forall i, (it <= i < length l)%nat -> below (nth i l d) = false).
Proof. exact lower_bound_first. Qed.
Print Assumptions C48_lower_bound.

Example C48_case :
  let rs := [mkRange 20 30; mkRange 1 5; mkRange 5 9] in
  let out := [mkRange 1 5; mkRange 5 9; mkRange 20 30] in
  Permutation rs out /\
  map (in_open out) [1; 2; 5; 8; 9; 15; 29; 31] = [false; true; false; true; false; false; true; false] /\
  map (in_closed out) [0; 1; 5; 9; 10; 30; 31] = [false; true; true; true; false; true; false].
Proof.
  split; [|vm_compute; auto].
  eapply perm_trans; [apply perm_swap|]. apply perm_skip. apply perm_swap.
Qed.

(** Overlapping ranges hide values: 5 lies in (1,10), next to (2,3). *)
Theorem C48_overlap_refuted : exists rs v r,
  sorted_from rs rs /\ Forall (fun r => r_a r < r_b r) rs /\ In r rs /\ r_a r < v < r_b r /\
  in_open rs v = false /\ in_closed rs v = false.
Proof.
  exists [mkRange 1 10; mkRange 2 3], 5, (mkRange 1 10). split.
  - split; [apply Permutation_refl|]. intros [|[|i]] [|[|j]] d Hi Hj; simpl in *; Lia.lia.
  - split; [repeat constructor|]. split; [left; reflexivity|]. split; [split; reflexivity|].
    split; reflexivity.
Qed.
Print Assumptions C48_overlap_refuted.

(** Even when the sets of integers are disjoint: (1,3) is {2}, (2,4) is {3}. *)
Theorem C48_adjacent_refuted : exists rs v r,
  sorted_from rs rs /\ In r rs /\ r_a r < v < r_b r /\ in_open rs v = false /\
  (forall w r1 r2, In r1 rs -> In r2 rs -> r_a r1 < w < r_b r1 -> r_a r2 < w < r_b r2 -> r1 = r2).
Proof.
  exists [mkRange 1 3; mkRange 2 4], 3, (mkRange 2 4). split.
  - split; [apply Permutation_refl|]. intros [|[|i]] [|[|j]] d Hi Hj; simpl in *; Lia.lia.
  - split; [right; left; reflexivity|]. split; [split; reflexivity|]. split; [reflexivity|].
    intros w r1 r2 [<-|[<-|[]]] [<-|[<-|[]]]; simpl; intros; auto; exfalso; Lia.lia.
Qed.
Print Assumptions C48_adjacent_refuted.

(** ** C49: the constexpr containers.  [None]: ill formed. *)
Theorem C49_vector : forall A N (vs : list A),
  static_vector N vs = if Nat.leb (length vs) N then Some vs else None.
Proof. exact @static_vector_eq. Qed.
Print Assumptions C49_vector.

Theorem C49_set : forall A (eqb : A -> A -> bool), (forall x y, eqb x y = true <-> x = y) ->
  forall N vs, static_set eqb N vs =
    if Nat.leb (length (once eqb vs)) N then Some (once eqb vs) else None.
Proof. exact @set_once. Qed.
Print Assumptions C49_set.

(** [once] has the members of the list, each once. *)
Theorem C49_once : forall A (eqb : A -> A -> bool), (forall x y, eqb x y = true <-> x = y) ->
  forall l, NoDup (once eqb l) /\ (forall x, In x (once eqb l) <-> In x l) /\
    (NoDup l -> once eqb l = l).
Proof. exact @once_spec. Qed.
Print Assumptions C49_once.

Theorem C49_map_lookup : forall V N (zero : V) es m key, static_map N zero es = Some m ->
  (key <> EmptyString \/ length es = N) -> map_get m key = last_value es key.
Proof. exact @map_get_last. Qed.
Print Assumptions C49_map_lookup.

Theorem C49_map_order : forall V N (zero : V) es m, static_map N zero es = Some m ->
  ascending (fun a b => String.compare a b = Lt) (map fst m) /\
  forall key, In key (map fst m) <->
    In key (map fst es) \/ (key = EmptyString /\ (length es < N)%nat).
Proof. exact @map_sorted. Qed.
Print Assumptions C49_map_order.

Theorem C49_find : forall A (eqb : A -> A -> bool), (forall x y, eqb x y = true <-> x = y) ->
  forall l v, (find_index eqb l v <= length l)%nat /\
    (forall i x, (i < find_index eqb l v)%nat -> nth_error l i = Some x -> x <> v) /\
    ((find_index eqb l v < length l)%nat -> nth_error l (find_index eqb l v) = Some v).
Proof. exact @find_index_spec. Qed.
Print Assumptions C49_find.

Theorem C49_equal_ranges : forall A (eqb : A -> A -> bool), (forall x y, eqb x y = true <-> x = y) ->
  forall xs ys, equal_ranges eqb xs ys = true <-> xs = ys.
Proof. exact @equal_ranges_eq. Qed.
Print Assumptions C49_equal_ranges.

Example C49_case :
  static_vector 2 [1; 2; 3] = None /\ static_set Z.eqb 2 [3; 1; 3; 1] = Some [3; 1] /\
  static_set Z.eqb 2 [3; 1; 2] = None /\
  static_map 4 0 [("b", 1); ("a", 2); ("b", 3)] = Some [("", 0); ("a", 2); ("b", 3)] /\
  map_get [("", 0); ("a", 2); ("b", 3)] "b" = Some 3 /\ find_index Z.eqb [4; 5] 6 = 2%nat.
Proof. vm_compute. repeat split; auto. Qed.

(** ** C51: the reference streams as a channel. *)

(** A message written at the end of a byte_stream that has been read up to there is
    what the next read returns, and leaves nothing unread. *)
Theorem C51_byte_stream : forall c fs vs buf s ch szw junk alloc o s2 ev lim,
  wf fs = true -> typed fs = true -> has_fields fs vs -> clean_fields c fs = true ->
  in_sync c fs vs -> sized_fields c fs (emitted c fs vs) -> widest_fields c fs <= lim ->
  wrun byte_ostream (stream_cast c fs vs) (mkBst buf (Z.of_nat (length buf)) true) = (Ok tt, s, ch) ->
  Z.of_nat (length (b_buf s)) + lim < 256 ^ Z.of_nat szw ->
  rrun (byte_stream szw junk) alloc (struct_cast c fs) s = (o, s2, ev) -> o <> Throw ->
  o = Ok (emitted c fs vs) /\ b_ok s2 = true /\ skipn (Z.to_nat (b_pos s2)) (b_buf s2) = [].
Proof. exact byte_channel. Qed.
Print Assumptions C51_byte_stream.

Example C51_case :
  let s := mkBst [7; 7; 7] 3 true in
  fst (fst (wrun byte_ostream (stream_cast le64 frame frame_val) s)) = Ok tt /\
  fst (fst (rrun (byte_stream 8 (fun _ => [])) grant (struct_cast le64 frame)
       (snd (fst (wrun byte_ostream (stream_cast le64 frame frame_val) s))))) =
    Ok (emitted le64 frame frame_val).
Proof. vm_compute. auto. Qed.

(** A healthy memstream takes the message if it has room, otherwise as many bytes of it
    as fit, and then the write fails with buffer_exhaustion. *)
Theorem C51_memstream : forall c fs vs buf rd wr o s ch, (wr <= length buf)%nat ->
  wrun mem_ostream (stream_cast c fs vs) (mkMst buf rd wr false) = (o, s, ch) ->
  let out := snd (wmem (stream_cast c fs vs)) in
  m_rd s = rd /\ length (m_buf s) = length buf /\
  if Nat.leb (wr + length out) (length buf)
  then o = fst (wmem (stream_cast c fs vs)) /\ m_bad s = false /\ m_wr s = (wr + length out)%nat /\
       m_buf s = firstn wr buf ++ out ++ skipn (wr + length out) buf
  else (exists id, o = Err (BufferExhaustion, id) /\ In id (f_ids fs)) /\ m_bad s = true /\
       m_buf s = firstn wr buf ++ firstn (length buf - wr) out.
Proof. exact mem_ostream_cast. Qed.
Print Assumptions C51_memstream.

Example C51_memstream_case :
  wrun mem_ostream (stream_cast le64 point [VZ 3; VZ 4]) (mkMst [0; 0; 0; 0; 0] 0 1 false) =
    (Ok tt, mkMst [0; 3; 0; 4; 0] 0 4 false, [([3; 0], true); ([4], true)]) /\
  fst (wrun mem_ostream (stream_cast le64 point [VZ 3; VZ 4]) (mkMst [0; 0; 0] 0 2 false)) =
    (Err (BufferExhaustion, "x"), mkMst [0; 0; 3] 0 3 true).
Proof. vm_compute. auto. Qed.

(** ** C37 (write): appended fields that take no length or discriminant from the
    existing ones do not change how those are written. *)
Theorem C37_append_write : forall c S fs gs vs ws s o s1 ch1,
  wf (f_app fs gs) = true -> length vs = f_len fs -> has_fields gs ws ->
  (forall id, In id (f_ids fs) -> ~ In id (all_sources gs)) ->
  wrun S (stream_cast c fs vs) s = (o, s1, ch1) ->
  match o with
  | Ok tt => exists o' s2 ch2,
      wrun S (stream_cast c (f_app fs gs) (vs ++ ws)) s = (o', s2, ch1 ++ ch2) /\
      (forall r id, o' = Err (r, id) -> In id (f_ids gs))
  | _ => wrun S (stream_cast c (f_app fs gs) (vs ++ ws)) s = (o, s1, ch1)
  end.
Proof. exact append_write. Qed.
Print Assumptions C37_append_write.

Definition tail_n : fields :=
  FCons "n" (fixed u8) CNone (FCons "xs" (FVar (TScalar u8) (LenField "n") None) CNone FNil).

Example C37_append_write_case :
  wf (f_app point tail_n) = true /\ has_fields tail_n [VZ 0; VSeq [VZ 7; VZ 8]] /\
  all_sources tail_n = ["n"] /\ f_ids point = ["x"; "y"] /\
  wrun budget_stream (stream_cast le64 point [VZ 1; VZ 2]) 9%nat =
    (Ok tt, 6%nat, [([1; 0], true); ([2], true)]) /\
  wrun budget_stream (stream_cast le64 (f_app point tail_n) [VZ 1; VZ 2; VZ 0; VSeq [VZ 7; VZ 8]]) 9%nat =
    (Ok tt, 3%nat, [([1; 0], true); ([2], true); ([2], true); ([7; 8], true)]).
Proof. split; [reflexivity|]. split; [has_it|]. vm_compute. auto. Qed.

(** An appended container takes over the field its length comes from. *)
Theorem C37_append_write_refuted : exists c S fs gs vs ws s s1 ch1,
  wf (f_app fs gs) = true /\ typed (f_app fs gs) = true /\ has_fields (f_app fs gs) (vs ++ ws) /\
  length vs = f_len fs /\ wrun S (stream_cast c fs vs) s = (Ok tt, s1, ch1) /\
  forall o s2 ch2, wrun S (stream_cast c (f_app fs gs) (vs ++ ws)) s <> (o, s2, ch1 ++ ch2).
Proof.
  exists le64, budget_stream, (FCons "n" (fixed u8) CNone FNil),
    (FCons "xs" (FVar (TScalar u8) (LenField "n") None) CNone FNil), [VZ 9], [VSeq [VZ 1]],
    9%nat, 8%nat, [([9], true)].
  split; [reflexivity|]. split; [reflexivity|]. split; [has_it|]. split; [reflexivity|].
  split; [reflexivity|]. intros o s2 ch2 H. vm_compute in H. inversion H.
Qed.
Print Assumptions C37_append_write_refuted.
