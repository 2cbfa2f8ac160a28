(** * Laws relating one cast to another

    [laxer_fields c c' fs fs']: same fields, weaker constraints, higher ceilings.
    [bytewise_fields]: no number is wider than one byte.  [same_shape]: two values
    that differ only in their numbers.  [refs]: the fields a length, a presence or a
    type is taken from.  [sticky_in], [sticky_out]: streams that stay failed.
    (Laws.v) *)
From Verif Require Import MoreDefs Laws Typing Streams Examples.
From Verif Require Import StreamFacts TotalFacts LawFacts LawMore.
Local Open Scope list_scope.

(** ** C67: constraints and ceilings only refuse. *)
Theorem C67_accepts : forall c c' fs fs' bs vs rest, c_wire c = c_wire c' -> c_szw c = c_szw c' ->
  laxer_fields c c' fs fs' -> wf fs = true -> Forall byte_ok bs ->
  rmem (struct_cast c fs) bs = (Ok vs, rest) -> rmem (struct_cast c' fs') bs = (Ok vs, rest).
Proof. intros c c' fs fs' bs vs rest H1 H2. exact (laxer_ok c c' H1 H2 fs fs' bs vs rest). Qed.
Print Assumptions C67_accepts.

(** The other errors stay. *)
Theorem C67_errors : forall c c' fs fs' bs r id, c_wire c = c_wire c' -> c_szw c = c_szw c' ->
  laxer_fields c c' fs fs' -> wf fs = true -> typed fs = true -> typed fs' = true ->
  Forall byte_ok bs ->
  fst (rmem (struct_cast c fs) bs) = Err (r, id) -> r <> ValidationFailure -> r <> ExcessiveLength ->
  fst (rmem (struct_cast c' fs') bs) = Err (r, id).
Proof. intros c c' fs fs' bs r id H1 H2. exact (laxer_err c c' H1 H2 fs fs' bs r id). Qed.
Print Assumptions C67_errors.

(** Where the laxer read stops, it stops no earlier. *)
Theorem C67_progress : forall c c' fs fs' bs r id r' id', c_wire c = c_wire c' -> c_szw c = c_szw c' ->
  laxer_fields c c' fs fs' -> wf fs = true -> typed fs = true -> Forall byte_ok bs ->
  fst (rmem (struct_cast c fs) bs) = Err (r, id) ->
  fst (rmem (struct_cast c' fs') bs) = Err (r', id') ->
  exists before after, f_ids fs = before ++ id :: after /\ In id' (id :: after).
Proof.
  intros c c' fs fs' bs r id r' id' H1 H2 L Hw Ht Hb H H'.
  exact (laxer_progress c c' H1 H2 fs fs' bs r id L Hw Ht Hb H r' id' H').
Qed.
Print Assumptions C67_progress.

(** What the laxer schema reads, the stricter one reads as well or refuses by a
    constraint or a ceiling. *)
Theorem C67_refuses : forall c c' fs fs' bs vs rest, c_wire c = c_wire c' -> c_szw c = c_szw c' ->
  laxer_fields c c' fs fs' -> wf fs = true -> typed fs = true -> typed fs' = true ->
  plain_fields fs = true -> Forall byte_ok bs ->
  rmem (struct_cast c' fs') bs = (Ok vs, rest) ->
  rmem (struct_cast c fs) bs = (Ok vs, rest) \/
  exists r id, fst (rmem (struct_cast c fs) bs) = Err (r, id) /\ (r = ValidationFailure \/ r = ExcessiveLength).
Proof. exact laxer_converse. Qed.
Print Assumptions C67_refuses.

Definition strict (b : Z) (k : constr) : fields :=
  FCons "n" (fixed u8) k (FCons "xs" (FVar (TScalar u8) (LenField "n") (Some b)) CNone FNil).

Example C67_case :
  laxer_fields le64 le64 (strict 2 (CCmp OEq i32 3)) (strict 4 CNone) /\
  fst (rmem (struct_cast le64 (strict 2 (CCmp OEq i32 3))) [2; 7; 8]) = Err (ValidationFailure, "n") /\
  fst (rmem (struct_cast le64 (strict 2 (CCmp OEq i32 3))) [3; 7; 8]) = Err (ExcessiveLength, "xs") /\
  fst (rmem (struct_cast le64 (strict 4 CNone)) [2; 7; 8]) = Ok [VZ 2; VSeq [VZ 7; VZ 8]] /\
  fst (rmem (struct_cast le64 (strict 4 CNone)) [3; 7; 8]) = Err (BufferExhaustion, "xs").
Proof.
  split; [|vm_compute; auto]. constructor; [constructor|intros v _; exact I|].
  constructor; [|intros v _; exact I|constructor]. constructor. unfold laxer_bound. vm_compute. discriminate.
Qed.

(** ** C68: byte order concerns numbers wider than one byte only.  The builds may
    differ in host order, wire order and kind of stream. *)
Theorem C68_read : forall c c' fs bs, c_szw c = c_szw c' -> c_dmax c = c_dmax c' ->
  bytewise_fields fs = true -> wf fs = true -> typed fs = true -> Forall byte_ok bs ->
  fst (rmem (struct_cast c fs) bs) = fst (rmem (struct_cast c' fs) bs) /\
  (forall vs rest, rmem (struct_cast c fs) bs = (Ok vs, rest) -> rmem (struct_cast c' fs) bs = (Ok vs, rest)).
Proof. exact bytewise_read. Qed.
Print Assumptions C68_read.

Theorem C68_write : forall c c' fs vs, c_szw c = c_szw c' -> bytewise_fields fs = true ->
  wf fs = true -> typed fs = true -> has_fields fs vs ->
  wmem (stream_cast c fs vs) = wmem (stream_cast c' fs vs).
Proof. exact bytewise_write_cast. Qed.
Print Assumptions C68_write.

(** A number of two bytes is enough to tell the orders apart. *)
Theorem C68_wide_refuted : exists fs bs, wf fs = true /\ typed fs = true /\ Forall byte_ok bs /\
  fst (rmem (struct_cast le64 fs) bs) <> fst (rmem (struct_cast be64 fs) bs).
Proof.
  exists (FCons "a" (fixed u16) CNone FNil), [1; 2]. do 2 (split; [reflexivity|]).
  split; [repeat constructor; discriminate|]. vm_compute. discriminate.
Qed.
Print Assumptions C68_wide_refuted.

Definition octets : fields :=
  FCons "n" (fixed u8) CNone (FCons "tag" (FFixed (TFixStr 2) 3) CNone
  (FCons "g" (FFixed (TArr 2 (TArr 2 (TScalar i8))) 4) CNone
  (FCons "xs" (FVar (TScalar u8) (LenField "n") (Some 8)) CNone FNil))).

Example C68_case : bytewise_fields octets = true /\ wf octets = true /\ typed octets = true /\
  rmem (struct_cast (mkCfg Big Little true 8 100) octets) [2; 65; 66; 0; 1; 2; 3; 255; 9; 8; 7] =
    (Ok [VZ 2; VSeq [VZ 65; VZ 66; VZ 0]; VSeq [VSeq [VZ 1; VZ 2]; VSeq [VZ 3; VZ (-1)]]; VSeq [VZ 9; VZ 8]], [7]) /\
  rmem (struct_cast (mkCfg Big Big false 8 100) octets) [2; 65; 66; 0; 1; 2; 3; 255; 9; 8; 7] =
    (Ok [VZ 2; VSeq [VZ 65; VZ 66; VZ 0]; VSeq [VSeq [VZ 1; VZ 2]; VSeq [VZ 3; VZ (-1)]]; VSeq [VZ 9; VZ 8]], [7]).
Proof. vm_compute. auto 6. Qed.

(** ** C69: the size of a message depends on the shape of the struct only. *)
Theorem C69_size : forall o fs vs ws, has_fields fs vs -> has_fields fs ws -> Forall2 same_shape vs ws ->
  length (enc_fields o fs vs) = length (enc_fields o fs ws).
Proof. intros o. exact (proj1 (proj2 (shape_size o))). Qed.
Print Assumptions C69_size.

Theorem C69_consumed : forall c fs bs bs' vs ws rest rest', wf fs = true ->
  Forall byte_ok bs -> Forall byte_ok bs' ->
  rmem (struct_cast c fs) bs = (Ok vs, rest) -> rmem (struct_cast c fs) bs' = (Ok ws, rest') ->
  Forall2 same_shape vs ws ->
  (length bs - length rest = length bs' - length rest')%nat.
Proof. exact shape_read. Qed.
Print Assumptions C69_consumed.

Example C69_case :
  Forall2 same_shape [VZ 3; VSome (VZ 7); VSeq [VZ 1; VZ 2]] [VZ 9; VSome (VZ 0); VSeq [VZ 4; VZ 5]] /\
  ~ same_shape (VSome (VZ 7)) VNone /\ ~ same_shape (VAlt 0 (VZ 1)) (VAlt 1 (VZ 1)) /\
  ~ same_shape (VSeq [VZ 1]) (VSeq []).
Proof.
  split; [repeat constructor|]. repeat split; intros H; inversion H.
  match goal with H : Forall2 _ _ _ |- _ => inversion H end.
Qed.

(** ** C70: a field nothing refers to can be replaced without touching the rest. *)
Theorem C70_unreferenced : forall c pre id t k post vpre v v' vpost rest,
  wf (f_app pre (FCons id t k post)) = true -> length vpre = f_len pre -> ~ In id (refs_fields post) ->
  valid c (f_app pre (FCons id t k post)) (vpre ++ v :: vpost) ->
  valid_ty c (mk_env pre vpre) t v' -> holds k v' ->
  rmem (struct_cast c (f_app pre (FCons id t k post)))
       (enc_fields (c_wire c) pre vpre ++ enc_ty (c_wire c) t v' ++ enc_fields (c_wire c) post vpost ++ rest) =
    (Ok (vpre ++ v' :: vpost), rest).
Proof. exact unreferenced. Qed.
Print Assumptions C70_unreferenced.

(** A field that gives a length cannot: the read goes wrong. *)
Theorem C70_referenced_refuted : exists c id t k post v v' vpost,
  wf (FCons id t k post) = true /\ valid c (FCons id t k post) (v :: vpost) /\
  valid_ty c [] t v' /\ holds k v' /\
  fst (rmem (struct_cast c (FCons id t k post))
       (enc_ty (c_wire c) t v' ++ enc_fields (c_wire c) post vpost)) <> Ok (v' :: vpost).
Proof.
  exists le64, "n", (fixed u8), CNone,
    (FCons "xs" (FVar (TScalar u8) (LenField "n") None) CNone FNil), (VZ 1), (VZ 2), [VSeq [VZ 5]].
  split; [reflexivity|].
  assert (R : rmem (struct_cast le64 (FCons "n" (fixed u8) CNone
    (FCons "xs" (FVar (TScalar u8) (LenField "n") None) CNone FNil))) [1; 5] = (Ok [VZ 1; VSeq [VZ 5]], []))
    by (vm_compute; reflexivity).
  split; [apply (RExactFacts.read_ok_iff le64 _ [1; 5] _ []); [reflexivity| |exact R];
          repeat constructor; discriminate|].
  split; [vm_compute; repeat split; try discriminate; constructor|]. split; [exact I|]. vm_compute. discriminate.
Qed.
Print Assumptions C70_referenced_refuted.

Example C70_case :
  let pre := FCons "n" (fixed u8) CNone FNil in
  let post := FCons "xs" (FVar (TScalar u8) (LenField "n") None) CNone FNil in
  ~ In "mode" (refs_fields post) /\
  rmem (struct_cast le64 (f_app pre (FCons "mode" (fixed u16) CNone post))) [2; 1; 0; 5; 6] =
    (Ok [VZ 2; VZ 1; VSeq [VZ 5; VZ 6]], []) /\
  rmem (struct_cast le64 (f_app pre (FCons "mode" (fixed u16) CNone post))) [2; 3; 4; 5; 6] =
    (Ok [VZ 2; VZ 1027; VSeq [VZ 5; VZ 6]], []).
Proof. split; [intros [H|[]]; discriminate|]. vm_compute. auto. Qed.

(** ** C71: how many bytes are enough. *)
Theorem C71_enough : forall c fs bs, wf fs = true ->
  total_fields c (own_bytes c) fs <= Z.of_nat (length bs) ->
  forall id, fst (rmem (struct_cast c fs) bs) <> Err (BufferExhaustion, id).
Proof. exact enough_bytes. Qed.
Print Assumptions C71_enough.

(** On any stream that holds as many. *)
Theorem C71_stream : forall c S good view lim alloc fs s r id s' ev,
  wf fs = true -> conforms S good view lim -> widest_fields c fs <= lim -> good s ->
  total_fields c (own_bytes c) fs <= Z.of_nat (length (view s)) ->
  rrun S alloc (struct_cast c fs) s = (Err (r, id), s', ev) -> r <> BufferExhaustion.
Proof. exact enough_stream. Qed.
Print Assumptions C71_stream.

(** Running out of bytes is the only outcome more bytes can change, and enough
    bytes do change it. *)
Theorem C71_only : forall c fs bs, wf fs = true ->
  ((exists id, fst (rmem (struct_cast c fs) bs) = Err (BufferExhaustion, id)) <->
   exists x, Forall byte_ok x /\ fst (rmem (struct_cast c fs) (bs ++ x)) <> fst (rmem (struct_cast c fs) bs)).
Proof. exact read_final. Qed.
Print Assumptions C71_only.

(** One byte less is not enough. *)
Theorem C71_tight_refuted : exists c fs bs id, wf fs = true /\
  total_fields c (own_bytes c) fs = Z.of_nat (length bs) + 1 /\
  fst (rmem (struct_cast c fs) bs) = Err (BufferExhaustion, id).
Proof. exists le64, (bounded 4), [4; 1; 2; 3], "xs". vm_compute. auto. Qed.
Print Assumptions C71_tight_refuted.

Example C71_case : total_fields le64 (own_bytes le64) (bounded 4) = 5 /\
  fst (rmem (struct_cast le64 (bounded 4)) [4; 1; 2; 3; 9]) = Ok [VZ 4; VSeq [VZ 1; VZ 2; VZ 3; VZ 9]] /\
  fst (rmem (struct_cast le64 (bounded 4)) [5; 1; 2; 3; 9]) = Err (ExcessiveLength, "xs").
Proof. vm_compute. auto. Qed.

(** ** C72: a stream that ran out stays out. *)
Theorem C72_read_fails_stream : forall c fs S failed alloc s id s' ev, wf fs = true -> sticky_in S failed ->
  rrun S alloc (struct_cast c fs) s = (Err (BufferExhaustion, id), s', ev) -> failed s'.
Proof. exact exhausted_failed. Qed.
Print Assumptions C72_read_fails_stream.

(** From a failed stream no byte arrives, and a cast that asks for one reports it. *)
Theorem C72_failed_read : forall c fs S failed alloc s o s' ev, wf fs = true -> sticky_in S failed ->
  failed s -> rrun S alloc (struct_cast c fs) s = (o, s', ev) ->
  failed s' /\ (forall n bs, ~ In (EvRead n (Some bs)) ev) /\
  ((exists id, o = Err (BufferExhaustion, id)) <-> exists n, In (EvRead n None) ev).
Proof. exact failed_read. Qed.
Print Assumptions C72_failed_read.

Theorem C72_first_field : forall c S failed alloc id t n k fs s, wf (FCons id (FFixed t n) k fs) = true ->
  sticky_in S failed -> failed s ->
  fst (fst (rrun S alloc (struct_cast c (FCons id (FFixed t n) k fs)) s)) = Err (BufferExhaustion, id).
Proof. exact failed_first. Qed.
Print Assumptions C72_first_field.

Theorem C72_write_fails_stream : forall c fs vs S failed s id s' ch, sticky_out S failed ->
  wrun S (stream_cast c fs vs) s = (Err (BufferExhaustion, id), s', ch) -> failed s'.
Proof. exact refused_failed. Qed.
Print Assumptions C72_write_fails_stream.

Theorem C72_failed_write : forall c fs vs S failed s o s' ch, sticky_out S failed -> failed s ->
  wrun S (stream_cast c fs vs) s = (o, s', ch) ->
  failed s' /\ (forall bs, ~ In (bs, true) ch) /\
  ((exists id, o = Err (BufferExhaustion, id)) <-> exists bs, In (bs, false) ch).
Proof. exact failed_write. Qed.
Print Assumptions C72_failed_write.

(** The four streams at hand. *)
Theorem C72_byte_stream : forall szw junk,
  sticky_in (byte_stream szw junk) (fun s => b_ok s = false) /\
  sticky_out byte_ostream (fun s => b_ok s = false).
Proof. intros szw junk. exact (conj (byte_stream_sticky szw junk) byte_ostream_sticky). Qed.
Print Assumptions C72_byte_stream.

Theorem C72_memstream : forall szw junk,
  sticky_in (memstream szw junk) (fun s => m_bad s = true) /\
  sticky_out mem_ostream (fun s => m_bad s = true).
Proof. intros szw junk. exact (conj (memstream_sticky szw junk) mem_ostream_sticky). Qed.
Print Assumptions C72_memstream.

Theorem C72_doc_memstream : forall junk,
  sticky_in (doc_memstream junk) (fun s => d_ok s = false).
Proof. exact doc_memstream_sticky. Qed.
Print Assumptions C72_doc_memstream.

Theorem C72_stringstream :
  sticky_in string_stream (fun s => ss_fail s = true) /\
  sticky_out string_ostream (fun s => ss_fail s = true).
Proof. exact (conj string_stream_sticky string_ostream_sticky). Qed.
Print Assumptions C72_stringstream.

(** Any other failure leaves a stream that can still be read. *)
Theorem C72_other_errors_refuted : exists fs bs r id s' ev,
  rrun string_stream grant (struct_cast le64 fs) (mkSst bs 0 0 false) = (Err (r, id), s', ev) /\
  ss_fail s' = false /\
  fst (fst (rrun string_stream grant (struct_cast le64 fs) s')) = Ok [VZ 5].
Proof.
  exists (FCons "a" (fixed u8) (CCmp OEq i32 5) FNil), [4; 5], ValidationFailure, "a",
    (mkSst [4; 5] 1 0 false), [EvRead 1 (Some [4])].
  vm_compute. auto.
Qed.
Print Assumptions C72_other_errors_refuted.

(** A cast that asks for nothing does not notice: an empty vector is read without any
    access element by element on a constexpr stream, with one otherwise; it is written
    without any in foreign order, with one in host order. *)
Theorem C72_unnoticed_refuted : exists fs,
  fst (fst (rrun string_stream grant (struct_cast (mkCfg Little Little true 8 100) fs) (mkSst [] 0 0 true)))
    = Ok [VSeq []] /\
  fst (fst (rrun string_stream grant (struct_cast (mkCfg Little Little false 8 100) fs) (mkSst [] 0 0 true)))
    = Err (BufferExhaustion, "xs") /\
  fst (fst (wrun string_ostream (stream_cast be64 fs [VSeq []]) (mkSst [] 0 0 true))) = Ok tt /\
  fst (fst (wrun string_ostream (stream_cast le64 fs [VSeq []]) (mkSst [] 0 0 true))) =
    Err (BufferExhaustion, "xs").
Proof.
  exists (FCons "xs" (FVar (TScalar u16) (LenComp (fun _ => 0) []) None) CNone FNil). vm_compute. auto.
Qed.
Print Assumptions C72_unnoticed_refuted.

Example C72_case :
  let r := rrun string_stream grant (struct_cast be64 packet) (mkSst (firstn 4 packet_be) 0 4 false) in
  fst (fst r) = Err (BufferExhaustion, "flags") /\ ss_fail (snd (fst r)) = true /\
  fst (fst (rrun string_stream grant (struct_cast be64 point) (snd (fst r)))) = Err (BufferExhaustion, "x") /\
  fst (fst (wrun string_ostream (stream_cast le64 point [VZ 3; VZ 4]) (snd (fst r)))) =
    Err (BufferExhaustion, "x").
Proof. vm_compute. auto. Qed.

(** ** C29, C51 for [std::stringstream]. *)
Theorem C29_stringstream : forall lim,
  conforms string_stream (fun s => ss_fail s = false) (fun s => skipn (ss_get s) (ss_buf s)) lim.
Proof. exact string_stream_conforms. Qed.
Print Assumptions C29_stringstream.

Theorem C51_stringstream : forall c fs vs buf s ch alloc o s2 ev,
  wf fs = true -> typed fs = true -> has_fields fs vs -> clean_fields c fs = true ->
  in_sync c fs vs -> sized_fields c fs (emitted c fs vs) ->
  wrun string_ostream (stream_cast c fs vs) (mkSst buf (length buf) (length buf) false) = (Ok tt, s, ch) ->
  rrun string_stream alloc (struct_cast c fs) s = (o, s2, ev) -> o <> Throw ->
  o = Ok (emitted c fs vs) /\ ss_fail s2 = false /\ skipn (ss_get s2) (ss_buf s2) = [].
Proof. exact string_channel. Qed.
Print Assumptions C51_stringstream.

Example C51_stringstream_case :
  let s := mkSst [7; 7; 7] 3 3 false in
  fst (fst (wrun string_ostream (stream_cast le64 frame frame_val) s)) = Ok tt /\
  fst (fst (rrun string_stream grant (struct_cast le64 frame)
       (snd (fst (wrun string_ostream (stream_cast le64 frame frame_val) s))))) =
  Ok (emitted le64 frame frame_val).
Proof. vm_compute. auto. Qed.

(** ** C73: writing is injective and normalising. *)
Theorem C73_injective : forall c fs vs ws out,
  wf fs = true -> typed fs = true -> clean_fields c fs = true ->
  has_fields fs vs -> in_sync c fs vs -> sized_fields c fs (emitted c fs vs) ->
  has_fields fs ws -> in_sync c fs ws -> sized_fields c fs (emitted c fs ws) ->
  wmem (stream_cast c fs vs) = (Ok tt, out) -> wmem (stream_cast c fs ws) = (Ok tt, out) ->
  emitted c fs vs = emitted c fs ws.
Proof. exact write_injective. Qed.
Print Assumptions C73_injective.

Theorem C73_normal : forall c fs vs out,
  wf fs = true -> typed fs = true -> clean_fields c fs = true ->
  has_fields fs vs -> steady fs = true -> free_fields fs = true -> sized_fields c fs (emitted c fs vs) ->
  wmem (stream_cast c fs vs) = (Ok tt, out) ->
  stream_cast c fs (emitted c fs vs) = stream_cast c fs vs.
Proof. exact write_normal. Qed.
Print Assumptions C73_normal.

(** Two structs of different content, one message: the declared width is too narrow. *)
Theorem C73_narrow_refuted : exists fs vs ws out,
  wf fs = true /\ typed fs = true /\ has_fields fs vs /\ has_fields fs ws /\
  wmem (stream_cast le64 fs vs) = (Ok tt, out) /\ wmem (stream_cast le64 fs ws) = (Ok tt, out) /\
  emitted le64 fs vs <> emitted le64 fs ws.
Proof.
  exists (slot16 1), [VZ 300], [VZ 44], [44]. do 2 (split; [reflexivity|]).
  do 2 (split; [has_it|]). do 2 (split; [reflexivity|]). vm_compute. discriminate.
Qed.
Print Assumptions C73_narrow_refuted.

Example C73_case :
  let other := VZ 250 :: VZ 7 :: VZ 1 :: VZ 33 :: skipn 4 frame_val in
  wmem (stream_cast le64 frame frame_val) = wmem (stream_cast le64 frame other) /\
  emitted le64 frame frame_val = emitted le64 frame other /\ frame_val <> other.
Proof. vm_compute. repeat split; discriminate. Qed.
