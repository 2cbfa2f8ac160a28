(** * Properties of struct_cast *)
From Verif Require Import PropDefs Typing Streams Examples.
From Verif Require Import ReadLemmas StreamFacts LayoutFacts Safety ReadMore ReadFinal CeilingFacts TightFacts DamageFacts.

(** ** C01: a successful read returns an admissible message and consumes exactly
    its encoding. *)
Theorem C01_read_sound : forall c fs bs vs rest,
  wf fs = true -> Forall byte_ok bs ->
  rmem (struct_cast c fs) bs = (Ok vs, rest) ->
  valid c fs vs /\ bs = enc_fields (c_wire c) fs vs ++ rest.
Proof. exact read_sound. Qed.
Print Assumptions C01_read_sound.

Example C01_case : wf packet = true /\ forallb (fun b => (0 <=? b) && (b <? 256)) packet_be = true /\
  rmem (struct_cast be64 packet) packet_be = (Ok packet_val, []).
Proof. vm_compute. auto. Qed.

(** ** C02: every admissible message is read back from its encoding. *)
Theorem C02_read_complete : forall c fs vs rest,
  wf fs = true -> valid c fs vs ->
  rmem (struct_cast c fs) (enc_fields (c_wire c) fs vs ++ rest) = (Ok vs, rest).
Proof. exact read_complete. Qed.
Print Assumptions C02_read_complete.

Example C02_case : wf packet = true /\ valid be64 packet packet_val /\
  enc_fields Big packet packet_val = packet_be.
Proof.
  split; [reflexivity|]. split; [|vm_compute; reflexivity].
  apply (read_sound be64 packet packet_be packet_val []).
  - reflexivity.
  - repeat constructor; unfold byte_ok; Lia.lia.
  - vm_compute. reflexivity.
Qed.

(** ** C05: bytes after the message are never looked at. *)
Theorem C05_trailing_bytes : forall c fs used rest vs x,
  rmem (struct_cast c fs) (used ++ rest) = (Ok vs, rest) ->
  rmem (struct_cast c fs) (used ++ x) = (Ok vs, x).
Proof. exact struct_cast_trailing. Qed.
Print Assumptions C05_trailing_bytes.

(** Errors other than running out of bytes do not depend on them either. *)
Theorem C05_trailing_bytes_error : forall c fs bs r id rest x, wf fs = true ->
  rmem (struct_cast c fs) bs = (Err (r, id), rest) -> r <> BufferExhaustion ->
  rmem (struct_cast c fs) (bs ++ x) = (Err (r, id), rest ++ x).
Proof. exact struct_cast_trailing_err. Qed.
Print Assumptions C05_trailing_bytes_error.

Example C05_case :
  rmem (struct_cast be64 packet) (packet_be ++ [1; 2; 3]) = (Ok packet_val, [1; 2; 3]) /\
  rmem (struct_cast be64 packet) [0xCA; 0xFF; 7] = (Err (ValidationFailure, "magic"), [7]).
Proof. vm_compute. auto. Qed.

(** ** C06: truncation is reported as buffer_exhaustion. *)
Theorem C06_truncation : forall c fs bs vs n, wf fs = true ->
  rmem (struct_cast c fs) bs = (Ok vs, []) -> (n < length bs)%nat ->
  exists id rest, In id (f_ids fs) /\
    rmem (struct_cast c fs) (firstn n bs) = (Err (BufferExhaustion, id), rest).
Proof. exact struct_cast_truncate. Qed.
Print Assumptions C06_truncation.

Example C06_case :
  rmem (struct_cast be64 packet) packet_be = (Ok packet_val, []) /\ (22 < length packet_be)%nat /\
  rmem (struct_cast be64 packet) (firstn 22 packet_be) = (Err (BufferExhaustion, "u"), []).
Proof. vm_compute. repeat split; auto. Lia.lia. Qed.

(** ** C07 (read): [failed_at] is the first failing top-level field; the fields
    before it were read, nothing after it touched the stream. *)
Theorem C07_read_failed_at : forall c S alloc fs s r id s' ev, wf fs = true ->
  rrun S alloc (struct_cast c fs) s = (Err (r, id), s', ev) ->
  exists pre t k post vs s1 ev1 ev2,
    fs = f_app pre (FCons id t k post) /\
    rrun S alloc (struct_cast c pre) s = (Ok vs, s1, ev1) /\ ev = ev1 ++ ev2 /\
    rrun S alloc (struct_cast c (f_app pre (FCons id t k FNil))) s = (Err (r, id), s', ev).
Proof. exact struct_cast_fail. Qed.
Print Assumptions C07_read_failed_at.

Example C07_read_case :
  let bad := firstn 30 packet_be ++ [0xFA; 0; 0; 0] in
  fst (fst (rrun list_stream grant (struct_cast be64 packet) bad)) = Err (ValidationFailure, "pair").
Proof. vm_compute. reflexivity. Qed.

(** ** C08 (read): vocabulary of read errors. *)
Theorem C08_read_vocabulary : forall c fs S alloc s r id s' ev, wf fs = true ->
  rrun S alloc (struct_cast c fs) s = (Err (r, id), s', ev) ->
  In id (f_ids fs) /\ r <> FoundContradictingLength /\
  (r = BufferExhaustion <-> exists n, In (EvRead n None) ev).
Proof. exact read_vocabulary. Qed.
Print Assumptions C08_read_vocabulary.

Example C08_read_case :
  rrun list_stream grant (struct_cast be64 packet) [0xCA; 0xFE; 2; 0] =
  (Err (BufferExhaustion, "flags"), [0],
   [EvRead 2 (Some [0xCA; 0xFE]); EvRead 1 (Some [2]); EvRead 2 None]).
Proof. vm_compute. reflexivity. Qed.

(** ** C09: every allocation stays within the ceiling of a container of the
    schema, and its byte count does not wrap. *)
Theorem C09_allocation_bounded : forall c fs S alloc s o s' ev n, wf fs = true ->
  rrun S alloc (struct_cast c fs) s = (o, s', ev) -> In (EvAlloc n) ev ->
  exists esz b len, In (esz, b) (containers_fields fs) /\ 0 <= len /\ n = len * esz /\
    n <= ceiling_of c b /\ n < 256 ^ Z.of_nat (c_szw c).
Proof. exact read_alloc. Qed.
Print Assumptions C09_allocation_bounded.

Example C09_case :
  In (EvAlloc 4) (snd (rrun list_stream grant (struct_cast be64 packet) packet_be)) /\
  containers_fields packet = [(2, Some 8); (4, None)].
Proof. vm_compute. auto 12. Qed.

(** ** C10: excessive_length is exact and fires before the field touches the
    stream.  [vs], [s1], [ev1]: the fields before it, where they left the stream,
    and what happened up to there. *)
Theorem C10_excessive_length_exact : forall c S alloc pre id elt l b k post s vs s1 ev1,
  wf (f_app pre (FCons id (FVar elt l b) k post)) = true ->
  typed (f_app pre (FCons id (FVar elt l b) k post)) = true -> delivers S ->
  rrun S alloc (struct_cast c pre) s = (Ok vs, s1, ev1) ->
  exists n, len_is c (mk_env pre vs) l n /\
  (ceiling_of c b < Z.of_nat n * Z.of_nat (csize elt) ->
   rrun S alloc (struct_cast c (f_app pre (FCons id (FVar elt l b) k post))) s =
     (Err (ExcessiveLength, id), s1, ev1)) /\
  (Z.of_nat n * Z.of_nat (csize elt) <= ceiling_of c b ->
   exists o s' ev,
   rrun S alloc (struct_cast c (f_app pre (FCons id (FVar elt l b) k post))) s =
     (o, s', ev1 ++ EvAlloc (Z.of_nat n * Z.of_nat (csize elt)) :: ev) /\
   o <> Err (ExcessiveLength, id)).
Proof. exact excessive_var_typed. Qed.
Print Assumptions C10_excessive_length_exact.

(** The same for a vector of records; its records may hold containers of their
    own, whose failures are reported under the same name. *)
Theorem C10_excessive_length_records : forall c S alloc pre id fs recsz l b k post s vs s1 ev1,
  wf (f_app pre (FCons id (FVecRec fs recsz l b) k post)) = true ->
  typed (f_app pre (FCons id (FVecRec fs recsz l b) k post)) = true -> delivers S ->
  rrun S alloc (struct_cast c pre) s = (Ok vs, s1, ev1) ->
  exists n, len_is c (mk_env pre vs) l n /\
  (ceiling_of c b < Z.of_nat n * recsz ->
   rrun S alloc (struct_cast c (f_app pre (FCons id (FVecRec fs recsz l b) k post))) s =
     (Err (ExcessiveLength, id), s1, ev1)) /\
  (Z.of_nat n * recsz <= ceiling_of c b ->
   exists o s' ev,
   rrun S alloc (struct_cast c (f_app pre (FCons id (FVecRec fs recsz l b) k post))) s =
     (o, s', ev1 ++ EvAlloc (Z.of_nat n * recsz) :: ev)).
Proof. exact excessive_vec_typed. Qed.
Print Assumptions C10_excessive_length_records.

(** "Setting it to [SIZE_MAX] disables the defaults entirely" (docs/reading.md:176):
    so it does for containers of single bytes. *)
Theorem C10_default_off : forall c fs S alloc s r id s' ev,
  c_dmax c = 256 ^ Z.of_nat (c_szw c) - 1 ->
  Forall (fun eb => eb = (1, None)) (containers_fields fs) ->
  rrun S alloc (struct_cast c fs) s = (Err (r, id), s', ev) -> r <> ExcessiveLength.
Proof. exact no_default. Qed.
Print Assumptions C10_default_off.

(** With larger elements a byte count beyond [SIZE_MAX] is still refused. *)
Theorem C10_default_off_refuted : exists c fs bs id rest,
  c_dmax c = 256 ^ Z.of_nat (c_szw c) - 1 /\
  Forall (fun eb => snd eb = None) (containers_fields fs) /\
  rmem (struct_cast c fs) bs = (Err (ExcessiveLength, id), rest).
Proof.
  exists (mkCfg Little Little false 8 (2 ^ 64 - 1)),
    (FCons "n" (fixed u64) CNone (FCons "xs" (FVar (TScalar u16) (LenField "n") None) CNone FNil)),
    [0; 0; 0; 0; 0; 0; 0; 0x80], "xs", [].
  split; [reflexivity|]. split; [repeat constructor|]. vm_compute. reflexivity.
Qed.
Print Assumptions C10_default_off_refuted.

(** 2^32 bytes are announced and asked for. *)
Example C10_default_off_case :
  let c := mkCfg Little Little false 8 (2 ^ 64 - 1) in
  let fs := FCons "n" (fixed u64) CNone
              (FCons "xs" (FVar (TScalar u8) (LenField "n") None) CNone FNil) in
  Forall (fun eb => eb = (1, None)) (containers_fields fs) /\
  rrun list_stream (fun _ => false) (struct_cast c fs) [0; 0; 0; 0; 1; 0; 0; 0] =
    (Throw, [], [EvRead 8 (Some [0; 0; 0; 0; 1; 0; 0; 0]); EvAlloc (2 ^ 32)]).
Proof. split; [repeat constructor|]. vm_compute. reflexivity. Qed.

(** Eight bytes are allowed (four elements), ten are not. *)
Example C10_case :
  let fs := f_app head (FCons "body" body CNone FNil) in
  let at_limit := [0xCA; 0xFE; 4; 0; 0; 1; 2; 3; 4; 5; 6; 7; 8] in
  let over := [0xCA; 0xFE; 5; 0; 0; 1; 2; 3; 4; 5; 6; 7; 8; 9; 10] in
  (exists vs, rmem (struct_cast be64 fs) at_limit = (Ok vs, [])) /\
  rmem (struct_cast be64 fs) over = (Err (ExcessiveLength, "body"), [1; 2; 3; 4; 5; 6; 7; 8; 9; 10]).
Proof. split; [eexists|]; vm_compute; reflexivity. Qed.

(** ** C11: a returned struct satisfies all its constraints, at every depth. *)
Theorem C11_constraints_hold : forall c fs bs vs rest, wf fs = true -> Forall byte_ok bs ->
  rmem (struct_cast c fs) bs = (Ok vs, rest) -> sat_fields fs vs.
Proof. exact read_constraints. Qed.
Print Assumptions C11_constraints_hold.

(** The constraint on [y] inside the last record of the last vector is run. *)
Example C11_case :
  let bad := removelast packet_be ++ [0xFA] in
  rmem (struct_cast be64 packet) bad = (Err (ValidationFailure, "pts"), []).
Proof. vm_compute. reflexivity. Qed.

(** ** C12: comparisons are exact on values the literal's type can represent. *)
Theorem C12_comparison_exact : forall c id ft n o s lit bs z rest, sc_in s z = true ->
  rmem (struct_cast c (FCons id (FFixed (TScalar ft) n) CNone FNil)) bs = (Ok [VZ z], rest) ->
  (cmp_holds o z lit ->
   rmem (struct_cast c (FCons id (FFixed (TScalar ft) n) (CCmp o s lit) FNil)) bs =
     (Ok [VZ z], rest)) /\
  (~ cmp_holds o z lit ->
   rmem (struct_cast c (FCons id (FFixed (TScalar ft) n) (CCmp o s lit) FNil)) bs =
     (Err (ValidationFailure, id), rest)).
Proof. exact compare_exact. Qed.
Print Assumptions C12_comparison_exact.

Theorem C12_any_of_exact : forall c id ft n s lits bs z rest, sc_in s z = true ->
  rmem (struct_cast c (FCons id (FFixed (TScalar ft) n) CNone FNil)) bs = (Ok [VZ z], rest) ->
  (In z lits ->
   rmem (struct_cast c (FCons id (FFixed (TScalar ft) n) (CAny s lits) FNil)) bs =
     (Ok [VZ z], rest)) /\
  (~ In z lits ->
   rmem (struct_cast c (FCons id (FFixed (TScalar ft) n) (CAny s lits) FNil)) bs =
     (Err (ValidationFailure, id), rest)).
Proof. exact any_exact. Qed.
Print Assumptions C12_any_of_exact.

Example C12_case : sc_in i32 200 = true /\
  rmem (struct_cast le64 (FCons "a" (fixed u8) CNone FNil)) [200; 1] = (Ok [VZ 200], [1]) /\
  rmem (struct_cast le64 (FCons "a" (fixed u8) (CCmp OLt i32 200) FNil)) [200; 1] =
    (Err (ValidationFailure, "a"), [1]).
Proof. vm_compute. auto. Qed.

(** Otherwise the comparison is against the converted value: [eq] accepts every
    value congruent to the literal. *)
Theorem C12_eq_congruent : forall c id ft n w lit bs z rest, 0 <= lit < 256 ^ Z.of_nat w ->
  rmem (struct_cast c (FCons id (FFixed (TScalar ft) n) CNone FNil)) bs = (Ok [VZ z], rest) ->
  rmem (struct_cast c (FCons id (FFixed (TScalar ft) n) (CCmp OEq (SInt w false) lit) FNil)) bs =
  (if z mod 256 ^ Z.of_nat w =? lit then Ok [VZ z] else Err (ValidationFailure, id), rest).
Proof. exact eq_congruent. Qed.
Print Assumptions C12_eq_congruent.

(** [eq{7}] (an [eq<int>]) on a 64-bit field accepts 2^32 + 7. *)
Theorem C12_unrestricted_refuted : exists c id ft n o s lit bs z rest,
  wf (FCons id (FFixed (TScalar ft) n) (CCmp o s lit) FNil) = true /\
  typed (FCons id (FFixed (TScalar ft) n) (CCmp o s lit) FNil) = true /\
  rmem (struct_cast c (FCons id (FFixed (TScalar ft) n) (CCmp o s lit) FNil)) bs = (Ok [VZ z], rest) /\
  ~ cmp_holds o z lit.
Proof.
  exists le64, "a", u64, 8%nat, OEq, i32, 7, [7; 0; 0; 0; 1; 0; 0; 0], (2 ^ 32 + 7), [].
  repeat split; try (vm_compute; reflexivity). vm_compute. discriminate.
Qed.
Print Assumptions C12_unrestricted_refuted.

(** [lt{0}] (an [lt<int>]) on an unsigned 32-bit field accepts 0xFFFFFFFF. *)
Example C12_lt_case :
  rmem (struct_cast le64 (FCons "a" (fixed u32) (CCmp OLt i32 0) FNil)) [255; 255; 255; 255] =
  (Ok [VZ 4294967295], []).
Proof. vm_compute. reflexivity. Qed.

(** ** C13, C28 (read): host byte order and the constexpr path are unobservable. *)
Theorem C13_C28_read_same : forall c c' fs bs,
  same_build c c' -> wf fs = true -> Forall byte_ok bs ->
  fst (rmem (struct_cast c fs) bs) = fst (rmem (struct_cast c' fs) bs) /\
  (forall vs, fst (rmem (struct_cast c fs) bs) = Ok vs ->
     snd (rmem (struct_cast c fs) bs) = snd (rmem (struct_cast c' fs) bs)).
Proof. exact read_same_build. Qed.
Print Assumptions C13_C28_read_same.

Example C13_case :
  same_build be64 (mkCfg Big Big true 8 16777216) /\
  rmem (struct_cast (mkCfg Big Big true 8 16777216) packet) packet_be = (Ok packet_val, []).
Proof. vm_compute. auto. Qed.

(** ** C14 (read): the field at any position of any schema occupies a contiguous
    block; byte number [byte_pos] of element [j] is the digit of weight 256^i of
    that element. *)
Theorem C14_read_layout : forall c pre id t k post bs ws rest,
  wf (f_app pre (FCons id t k post)) = true -> Forall byte_ok bs ->
  rmem (struct_cast c (f_app pre (FCons id t k post))) bs = (Ok ws, rest) ->
  exists vs v us b1 b2 b3, ws = vs ++ v :: us /\ length vs = f_len pre /\
    bs = b1 ++ b2 ++ b3 ++ rest /\
    b1 = enc_fields (c_wire c) pre vs /\
    forall s l, scalars_of t v = Some (s, l) ->
      length b2 = (length l * ssize s)%nat /\
      forall j i, (j < length l)%nat -> (i < ssize s)%nat ->
        nth (j * ssize s + byte_pos (c_wire c) (ssize s) i) b2 0 =
        (nth j l 0 / 256 ^ Z.of_nat i) mod 256.
Proof. exact read_scalar_bytes. Qed.
Print Assumptions C14_read_layout.

Example C14_case :
  scalars_of grid (VSeq [VSeq [VZ 1; VZ 2]; VSeq [VZ 3; VZ 0x0405]]) = Some (u16, [1; 2; 3; 0x0405]) /\
  rmem (struct_cast be64 (FCons "g" grid CNone FNil)) [0; 1; 0; 2; 0; 3; 4; 5] =
    (Ok [VSeq [VSeq [VZ 1; VZ 2]; VSeq [VZ 3; VZ 0x0405]]], []) /\
  rmem (struct_cast le64 (FCons "a" (fixed i16) CNone FNil)) [0xFE; 0xFF] = (Ok [VZ (-2)], []).
Proof. vm_compute. auto. Qed.

(** ** C21 (read): an optional occupies bytes exactly when its predicate holds. *)
Theorem C21_read_optional : forall c S alloc pre id b p ids s vs s1 ev1,
  wf (f_app pre (FCons id (FMaybe b p ids) CNone FNil)) = true ->
  rrun S alloc (struct_cast c pre) s = (Ok vs, s1, ev1) ->
  exists args, lookups (mk_env pre vs) ids = Some args /\
  rrun S alloc (struct_cast c (f_app pre (FCons id (FMaybe b p ids) CNone FNil))) s =
  if p args then
    match rrun S alloc (struct_cast c (f_app pre (FCons id b CNone FNil))) s with
    | (o, s2, ev2) => (on_last VSome o, s2, ev2)
    end
  else (Ok (vs ++ [VNone]), s1, ev1).
Proof. exact maybe_read_typed. Qed.
Print Assumptions C21_read_optional.

Example C21_case :
  let fs := f_app head (FCons "opt" opt CNone FNil) in
  rmem (struct_cast be64 fs) [0xCA; 0xFE; 0; 0; 2; 1; 2; 3; 4] =
    (Ok [VZ 0xCAFE; VZ 0; VZ 2; VNone], [1; 2; 3; 4]) /\
  rmem (struct_cast be64 fs) [0xCA; 0xFE; 0; 0; 3; 1; 2; 3; 4] =
    (Ok [VZ 0xCAFE; VZ 0; VZ 3; VSome (VZ 0x01020304)], []).
Proof. vm_compute. auto. Qed.

(** ** C22 (read): the first matching case is read, as that alternative would be
    on its own; type_deduction_failure exactly when none matches, without touching
    the stream. *)
Theorem C22_read_first_match : forall c S alloc pre id g al s vs s1 ev1,
  wf (f_app pre (FCons id (FUnion g al) CNone FNil)) = true ->
  typed (f_app pre (FCons id (FUnion g al) CNone FNil)) = true -> delivers S ->
  rrun S alloc (struct_cast c pre) s = (Ok vs, s1, ev1) ->
  (exists i t k, selects (mk_env pre vs) g i /\ a_nth i al = Some (t, k) /\
     rrun S alloc (struct_cast c (f_app pre (FCons id (FUnion g al) CNone FNil))) s =
     match rrun S alloc (struct_cast c (f_app pre (FCons id t k FNil))) s with
     | (o, s2, ev2) => (on_last (VAlt i) o, s2, ev2)
     end) \/
  ((forall i, ~ selects (mk_env pre vs) g i) /\
     rrun S alloc (struct_cast c (f_app pre (FCons id (FUnion g al) CNone FNil))) s =
     (Err (TypeDeductionFailure, id), s1, ev1)).
Proof. exact union_read_typed. Qed.
Print Assumptions C22_read_first_match.

Example C22_case :
  let fs := f_app head (FCons "l" ladder CNone FNil) in
  wf fs = true /\ typed fs = true /\
  rmem (struct_cast be64 fs) [0xCA; 0xFE; 9; 0; 1; 0x11] =
    (Ok [VZ 0xCAFE; VZ 9; VZ 1; VAlt 0 (VZ 0x11)], []) /\
  rmem (struct_cast be64 fs) [0xCA; 0xFE; 10; 0; 1; 0; 0; 1; 0] =
    (Ok [VZ 0xCAFE; VZ 10; VZ 1; VAlt 1 (VZ 256)], []) /\
  rmem (struct_cast be64 fs) [0xCA; 0xFE; 10; 0; 2; 7] = (Err (TypeDeductionFailure, "l"), [7]).
Proof. vm_compute. auto 6. Qed.

(** ** C29: the result depends only on the bytes the stream delivers. *)
Theorem C29_stream_is_bytes : forall c S good view lim alloc fs s o s' ev,
  wf fs = true -> conforms S good view lim -> widest_fields c fs <= lim -> good s ->
  rrun S alloc (struct_cast c fs) s = (o, s', ev) -> o <> Throw ->
  fst (rmem (struct_cast c fs) (view s)) = o /\
  (forall a, o = Ok a -> good s' /\ view s' = snd (rmem (struct_cast c fs) (view s))).
Proof. exact struct_cast_conforms. Qed.
Print Assumptions C29_stream_is_bytes.

Theorem C29_two_streams : forall c S1 good1 view1 S2 good2 view2 lim alloc fs
  s1 s2 o1 s1' ev1 o2 s2' ev2,
  wf fs = true -> conforms S1 good1 view1 lim -> conforms S2 good2 view2 lim ->
  widest_fields c fs <= lim -> good1 s1 -> good2 s2 -> view1 s1 = view2 s2 ->
  rrun S1 alloc (struct_cast c fs) s1 = (o1, s1', ev1) ->
  rrun S2 alloc (struct_cast c fs) s2 = (o2, s2', ev2) ->
  o1 = o2 /\ ev1 = ev2 /\
  (forall a, o1 = Ok a -> good1 s1' /\ good2 s2' /\ view1 s1' = view2 s2').
Proof. exact struct_cast_conforms_two. Qed.
Print Assumptions C29_two_streams.

(** The reference byte_stream holds the unread part of its buffer, as long as
    position and request cannot wrap around. *)
Theorem C29_byte_stream : forall szw junk lim,
  conforms (byte_stream szw junk)
    (fun s => b_ok s = true /\ 0 <= b_pos s <= Z.of_nat (length (b_buf s)) /\
              Z.of_nat (length (b_buf s)) + lim < 256 ^ Z.of_nat szw)
    (fun s => skipn (Z.to_nat (b_pos s)) (b_buf s)) lim.
Proof. exact byte_stream_conforms. Qed.
Print Assumptions C29_byte_stream.

(** The constexpr memstream over a non-empty buffer. *)
Theorem C29_memstream : forall szw junk lim,
  conforms (memstream szw junk)
    (fun s => m_bad s = false /\ (0 < length (m_buf s))%nat /\ (m_rd s <= length (m_buf s))%nat /\
              Z.of_nat (length (m_buf s)) < 256 ^ Z.of_nat szw)
    (fun s => skipn (m_rd s) (m_buf s)) lim.
Proof. exact memstream_conforms. Qed.
Print Assumptions C29_memstream.

(** The constexpr memstream of docs/compile-time.md, over any buffer. *)
Theorem C29_doc_memstream : forall junk lim,
  conforms (doc_memstream junk)
    (fun s => d_ok s = true /\ (d_rd s <= length (d_buf s))%nat)
    (fun s => skipn (d_rd s) (d_buf s)) lim.
Proof. exact doc_memstream_conforms. Qed.
Print Assumptions C29_doc_memstream.

(** The example of that page, and its stream over nothing. *)
Example C29_doc_memstream_case :
  let entry := FCons "start_lba" (fixed u32) CNone (FCons "sector_count" (fixed u32) CNone FNil) in
  let disk := [0xde; 0xad; 0xbe; 0xef; 0xca; 0xfe; 0xd0; 0x0d] in
  fst (fst (rrun (doc_memstream 0) grant (struct_cast be64 entry) (mkDst disk 0 true)))
    = Ok [VZ 0xdeadbeef; VZ 0xcafed00d] /\
  fst (fst (rrun (doc_memstream 0) grant (struct_cast be64 entry) (mkDst [] 0 true)))
    = Err (BufferExhaustion, "start_lba").
Proof. vm_compute. auto. Qed.

Example C29_case :
  widest_fields be64 packet = 8 /\
  fst (fst (rrun (byte_stream 8 (fun _ => [])) grant (struct_cast be64 packet) (mkBst packet_be 0 true)))
    = Ok packet_val /\
  fst (fst (rrun (memstream 8 0) grant (struct_cast be64 packet) (mkMst (0 :: packet_be) 1 0 false)))
    = Ok packet_val.
Proof. vm_compute. auto. Qed.

(** ** C30: no undefined behaviour on schemas without [bool] slots, [fixed_string]
    comparisons and integer literals on floating-point fields (C101), on any stream. *)
Theorem C30_no_undefined_behaviour : forall c fs S alloc s o s' ev,
  wf fs = true -> typed fs = true -> plain_fields fs = true -> delivers S ->
  rrun S alloc (struct_cast c fs) s = (o, s', ev) -> o <> UB.
Proof. exact struct_cast_no_ub. Qed.
Print Assumptions C30_no_undefined_behaviour.

Example C30_case : wf packet = true /\ typed packet = true /\ plain_fields packet = true.
Proof. vm_compute. auto. Qed.

(** The guard is exact for one field of constant size declared as wide as its type: some
    input makes its read undefined if and only if the field is not plain.  (A membership in no
    literal at all is not plain and compares nothing.) *)
Theorem C30_exact : forall c id t k,
  wf (FCons id (FFixed t (csize t)) k FNil) = true ->
  typed (FCons id (FFixed t (csize t)) k FNil) = true -> k <> CStrAny [] ->
  ((exists bs, Forall byte_ok bs /\
      fst (rmem (struct_cast c (FCons id (FFixed t (csize t)) k FNil)) bs) = UB) <->
   plain_fields (FCons id (FFixed t (csize t)) k FNil) = false).
Proof. exact ub_reachable. Qed.
Print Assumptions C30_exact.

Example C30_exact_case :
  let f t k := FCons "a" (FFixed t (csize t)) k FNil in
  let ok fs := (wf fs, typed fs, plain_fields fs) in
  ok (f (TArr 3 (TArr 2 (TScalar SBool))) CNone) = (true, true, false) /\
  ok (f (TFixStr 2) (CStrAny [[72; 66; 0]])) = (true, true, false) /\
  ok (f (TFloat 4) (CCmp OGt (SInt 4 true) 7)) = (true, true, false) /\
  ok (f (TScalar (SInt 2 false)) (CCmp OGt (SInt 4 true) 7)) = (true, true, true).
Proof. vm_compute. auto. Qed.

(** A magic string whose terminator is missing on the wire is compared past the
    end of the object. *)
Definition hdr : fields :=
  FCons "m" (FFixed (TFixStr 2) 3) (CStr false [72; 66; 0]) FNil.

Theorem C30_magic_string_refuted : exists c fs bs,
  wf fs = true /\ typed fs = true /\ Forall byte_ok bs /\ fst (rmem (struct_cast c fs) bs) = UB.
Proof.
  exists le64, hdr, [72; 66; 33]. repeat split; try (vm_compute; reflexivity).
  repeat constructor; unfold byte_ok; Lia.lia.
Qed.
Print Assumptions C30_magic_string_refuted.

(** A [bool] field filled with a byte other than 0 and 1. *)
Theorem C30_bool_refuted : exists c fs bs,
  wf fs = true /\ typed fs = true /\ Forall byte_ok bs /\ fst (rmem (struct_cast c fs) bs) = UB.
Proof.
  exists le64, (FCons "b" (fixed SBool) CNone FNil), [2].
  repeat split; try (vm_compute; reflexivity). repeat constructor; unfold byte_ok; Lia.lia.
Qed.
Print Assumptions C30_bool_refuted.

(** ** C35 (read): fixed layouts have a fixed size and never allocate. *)
Theorem C35_read_fixed_size : forall c fs n bs vs rest, wf fs = true -> Forall byte_ok bs ->
  layout_fields fs = Some n -> rmem (struct_cast c fs) bs = (Ok vs, rest) ->
  length bs = (n + length rest)%nat.
Proof. exact layout_read. Qed.
Print Assumptions C35_read_fixed_size.

Theorem C35_read_no_allocation : forall c fs n S alloc s o s' ev, wf fs = true ->
  layout_fields fs = Some n -> rrun S alloc (struct_cast c fs) s = (o, s', ev) ->
  forall m, ~ In (EvAlloc m) ev.
Proof. exact layout_no_alloc. Qed.
Print Assumptions C35_read_no_allocation.

Example C35_case :
  layout_fields (f_app head (FCons "p" (FArrRec 3 point) CNone (FCons "g" grid CNone FNil))) = Some 22%nat.
Proof. vm_compute. reflexivity. Qed.

(** ** C36 (read): a nested record is the same cast on its own; arrays and vectors
    of records repeat it. *)
Theorem C36_read_record : forall c S alloc pre id fs s vs s1 ev1,
  wf (f_app pre (FCons id (FStruct fs) CNone FNil)) = true ->
  rrun S alloc (struct_cast c pre) s = (Ok vs, s1, ev1) ->
  rrun S alloc (struct_cast c (f_app pre (FCons id (FStruct fs) CNone FNil))) s =
  match rrun S alloc (struct_cast c fs) s1 with
  | (o, s2, ev2) => (nested id VRec vs o, s2, ev1 ++ ev2)
  end.
Proof. exact record_read'. Qed.
Print Assumptions C36_read_record.

Theorem C36_read_array : forall c S alloc pre id n fs s vs s1 ev1,
  wf (f_app pre (FCons id (FArrRec n fs) CNone FNil)) = true ->
  rrun S alloc (struct_cast c pre) s = (Ok vs, s1, ev1) ->
  rrun S alloc (struct_cast c (f_app pre (FCons id (FArrRec n fs) CNone FNil))) s =
  match cast_many c fs S alloc n s1 with
  | (o, s2, ev2) => (nested id VSeq vs o, s2, ev1 ++ ev2)
  end.
Proof. exact array_read. Qed.
Print Assumptions C36_read_array.

Theorem C36_read_vector : forall c S alloc pre id fs recsz l b s vs s1 ev1 n,
  wf (f_app pre (FCons id (FVecRec fs recsz l b) CNone FNil)) = true ->
  rrun S alloc (struct_cast c pre) s = (Ok vs, s1, ev1) ->
  len_is c (mk_env pre vs) l n -> within c b recsz n ->
  rrun S alloc (struct_cast c (f_app pre (FCons id (FVecRec fs recsz l b) CNone FNil))) s =
  if alloc (Z.of_nat n * recsz) then
    match cast_many c fs S alloc n s1 with
    | (o, s2, ev2) => (nested id VSeq vs o, s2, ev1 ++ EvAlloc (Z.of_nat n * recsz) :: ev2)
    end
  else (Throw, s1, ev1 ++ [EvAlloc (Z.of_nat n * recsz)]).
Proof. exact vector_read. Qed.
Print Assumptions C36_read_vector.

Example C36_case :
  fst (fst (rrun list_stream grant (struct_cast be64 (f_app head (FCons "p" (FStruct point) CNone FNil)))
     [0xCA; 0xFE; 0; 0; 2; 0; 1; 0xFA])) = Err (ValidationFailure, "p") /\
  fst (fst (rrun list_stream grant (struct_cast be64 point) [0; 1; 0xFA])) = Err (ValidationFailure, "y").
Proof. vm_compute. auto. Qed.

(** ** C37: appending fields changes nothing about the existing ones. *)
Theorem C37_append : forall c S alloc fs gs s o s1 ev1, wf (f_app fs gs) = true ->
  rrun S alloc (struct_cast c fs) s = (o, s1, ev1) ->
  match o with
  | Ok vs => exists o' s2 ev2,
      rrun S alloc (struct_cast c (f_app fs gs)) s = (o', s2, ev1 ++ ev2) /\
      (forall ws, o' = Ok ws -> exists us, ws = vs ++ us /\ length us = f_len gs) /\
      (forall r id, o' = Err (r, id) -> In id (f_ids gs))
  | _ => rrun S alloc (struct_cast c (f_app fs gs)) s = (o, s1, ev1)
  end.
Proof. exact append_read. Qed.
Print Assumptions C37_append.

Example C37_case :
  fst (rmem (struct_cast be64 head) packet_be) = Ok [VZ 0xCAFE; VZ 2; VZ 1] /\
  firstn 3 packet_val = [VZ 0xCAFE; VZ 2; VZ 1] /\ wf packet = true.
Proof. vm_compute. auto. Qed.

(** Whatever follows an intact beginning of the message, the fields it holds are read
    as they were, or the error is about a later field. *)
Theorem C37_damage : forall c fs gs vs z, wf (f_app fs gs) = true -> valid c fs vs ->
  match fst (rmem (struct_cast c (f_app fs gs)) (enc_fields (c_wire c) fs vs ++ z)) with
  | Ok ws => exists us, ws = vs ++ us /\ length us = f_len gs
  | Err (r, id) => In id (f_ids gs)
  | _ => True
  end.
Proof. exact damage_read. Qed.
Print Assumptions C37_damage.

Example C37_damage_case : valid be64 head (firstn 3 packet_val) /\
  enc_fields Big head (firstn 3 packet_val) = firstn 5 packet_be /\
  rmem (struct_cast be64 packet) (firstn 5 packet_be ++ repeat 9 20) =
    (Err (TypeDeductionFailure, "u"%string), [9; 9; 9]) /\
  fst (rmem (struct_cast be64 packet) (firstn 5 packet_be ++ [9; 9])) =
    Err (BufferExhaustion, "body"%string).
Proof.
  split; [|vm_compute; auto].
  refine (proj1 (read_sound be64 head (firstn 5 packet_be) (firstn 3 packet_val) [] eq_refl _ _)).
  - repeat constructor; vm_compute; congruence.
  - vm_compute. reflexivity.
Qed.

(** ** C42 (read): a typed schema never gets stuck and returns values of the
    declared types. *)
Theorem C42_read_not_stuck : forall c fs S alloc s o s' ev,
  wf fs = true -> typed fs = true -> delivers S ->
  rrun S alloc (struct_cast c fs) s = (o, s', ev) ->
  o <> Stuck /\ (forall vs, o = Ok vs -> has_fields fs vs).
Proof. exact struct_cast_not_stuck. Qed.
Print Assumptions C42_read_not_stuck.

Example C42_case : wf packet = true /\ typed packet = true /\ has_fields packet packet_val.
Proof.
  split; [reflexivity|]. split; [reflexivity|]. cbn.
  repeat (first [split | constructor]); try reflexivity.
Qed.
