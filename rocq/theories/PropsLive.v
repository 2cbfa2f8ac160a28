(** * C113: the memory a read has in use *)
From Verif Require Import PropDefs Examples LiveSpec Live LiveFacts.
Local Open Scope string_scope.
Local Open Scope list_scope.
Local Open Scope Z_scope.

(** ** C113: reading needs room for two copies of what is read, no more and no less, and
    leaves one. *)

(** On any stream, with any allocator: as with memory to spare and no copies, or
    [bad_alloc] on the way there. *)
Theorem C113_run : forall c fs S, wf fs = true -> forall L s a o s1 ev o2 s2 ev2,
  rrun S granting (struct_cast c fs) s = (o, s1, ev) ->
  mrun S L (m_struct_cast c fs) s a = (o2, s2, ev2) ->
  o2 = Throw /\ (exists l, reads_of ev = asked ev2 ++ l) \/
  o2 = o /\ s2 = s1 /\ asked ev2 = reads_of ev.
Proof. exact live_run. Qed.
Print Assumptions C113_run.

(** The requests are those of the reader of Copies.v. *)
Theorem C113_copies : forall c fs S s o s1 ev,
  mrun S plenty (m_struct_cast c fs) s tt = (o, s1, ev) ->
  exists ev', rrun S granting (cp_struct_cast c fs) s = (o, s1, ev') /\
    taken ev = blocks_of ev' /\ asked ev = reads_of ev'.
Proof. exact live_copies. Qed.
Print Assumptions C113_copies.

(** After a read that succeeds the containers of the result are in use and nothing else;
    at some time during the read it was twice that, and never more. *)
Theorem C113_exact : forall c fs S, wf fs = true -> forall L s a vs s1 ev,
  mrun S L (m_struct_cast c fs) s a = (Ok vs, s1, ev) ->
  in_use (accounts ev) = owned_fields fs vs /\ most (accounts ev) = 2 * owned_fields fs vs.
Proof. exact live_exact. Qed.
Print Assumptions C113_exact.

(** Any read, successful or not. *)
Theorem C113_bound : forall c fs S, wf fs = true -> forall L s a o s1 ev,
  mrun S L (m_struct_cast c fs) s a = (o, s1, ev) ->
  most (accounts ev) <= 2 * total_fields c (own_memory c) fs.
Proof. exact live_bound. Qed.
Print Assumptions C113_bound.

(** In a pool of [b] bytes a message that can be read is read if and only if the pool has
    room for two copies. *)
Theorem C113_room : forall c fs S, wf fs = true -> forall s vs s1 ev b, 0 <= b ->
  rrun S granting (struct_cast c fs) s = (Ok vs, s1, ev) ->
  fst (fst (mrun S room (m_struct_cast c fs) s b)) =
    if 2 * owned_fields fs vs <=? b then Ok vs else Throw.
Proof. exact live_room. Qed.
Print Assumptions C113_room.

(** A pool in which nothing is ever refused. *)
Theorem C113_enough : forall c fs S, wf fs = true -> forall s b,
  2 * total_fields c (own_memory c) fs <= b ->
  forall o s1 ev, rrun S granting (struct_cast c fs) s = (o, s1, ev) ->
  fst (mrun S room (m_struct_cast c fs) s b) = (o, s1).
Proof. exact live_enough. Qed.
Print Assumptions C113_enough.

(** A schema without strings, vectors and vectors of records uses no memory at all. *)
Theorem C113_flat : forall c fs S L s a o s1 ev, flat_fields fs = true ->
  mrun S L (m_struct_cast c fs) s a = (o, s1, ev) -> accounts ev = [].
Proof. exact live_flat. Qed.
Print Assumptions C113_flat.

(** A string of up to 4 bytes in a record, the record in a vector (2 bytes each), and an
    optional string. *)
Definition lv_str : fty := FVar (TScalar u8) (LenField "n") (Some 4).
Definition lv_rec : fields := FCons "n" (fixed u8) CNone (FCons "s" lv_str CNone FNil).
Definition lv_all : fields :=
  FCons "n" (fixed u8) CNone
 (FCons "vec" (FVecRec lv_rec 2 (LenField "n") (Some 4)) CNone
 (FCons "opt" (FMaybe lv_str (fun _ => true) []) CNone FNil)).
Definition lv_bytes : list Z := [2; 1; 7; 3; 8; 9; 10; 11; 12].
Definition lv_value : list val :=
  [VZ 2; VSeq [VRec [VZ 1; VSeq [VZ 7]]; VRec [VZ 3; VSeq [VZ 8; VZ 9; VZ 10]]];
   VSome (VSeq [VZ 11; VZ 12])].

Example C113_case : wf lv_all = true /\
  fst (mrun list_stream plenty (m_struct_cast le64 lv_all) lv_bytes tt) = (Ok lv_value, []) /\
  accounts (snd (mrun list_stream plenty (m_struct_cast le64 lv_all) lv_bytes tt)) =
    [4; 1; 1; -1; 1; -1; 3; 3; -3; 3; -3; 2; 2; -2] ++ [4; 1; 3; 2] ++ [-4; -1; -3; -2] /\
  owned_fields lv_all lv_value = 10 /\
  total_fields le64 (own_memory le64) lv_all = 16 /\
  fst (fst (mrun list_stream room (m_struct_cast le64 lv_all) lv_bytes 20)) = Ok lv_value /\
  fst (fst (mrun list_stream room (m_struct_cast le64 lv_all) lv_bytes 19)) = Throw.
Proof. vm_compute. repeat split; reflexivity. Qed.

(** The bound is reached. *)
Example C113_bound_reached :
  most (accounts (snd (mrun list_stream plenty (m_struct_cast le64 lv_rec) [4; 1; 2; 3; 4] tt))) = 8 /\
  2 * total_fields le64 (own_memory le64) lv_rec = 8.
Proof. vm_compute. auto. Qed.

(** No containers: an array of records, an optional number. *)
Example C113_flat_case :
  let fs := FCons "a" (FArrRec 2 (FCons "x" (fixed u8) CNone FNil)) CNone
           (FCons "o" (FMaybe (fixed u16) (fun _ => true) []) CNone FNil) in
  flat_fields fs = true /\
  mrun list_stream room (m_struct_cast le64 fs) [1; 2; 3; 4] 0 =
    (Ok [VSeq [VRec [VZ 1]; VRec [VZ 2]]; VSome (VZ 1027)], [],
     [MvRead 1 (Some [1]); MvRead 1 (Some [2]); MvRead 2 (Some [3; 4])]).
Proof. vm_compute. auto. Qed.
