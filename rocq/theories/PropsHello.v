(** * C103: the example program *)
From Coq Require Import String.
From Verif Require Import HelloSpec HelloFacts.
Import ListNotations.
Local Open Scope Z_scope.

(** [c]: little endian on the wire (the program calls [struct_cast_le]), run time, a 64-bit
    [size_t], any byte order of the host, any default ceiling. *)
Definition machine (c : cfg) : Prop :=
  c_wire c = Little /\ c_cx c = false /\ c_szw c = 8%nat /\ 0 <= c_dmax c < 2 ^ 64.

(** What it prints and returns, for every content of sample.bin and every allocator. *)
Theorem C103_runs : forall ur c sg alloc, machine c ->
  hello ur c sg alloc None = Some (Returned 1 [] (codes "cannot open sample.bin" ++ [10])) /\
  (forall bs, (List.length bs < 8)%nat ->
     hello ur c sg alloc (Some bs) = Some (Returned 1 [] (codes "read failed: reason=0 at=len" ++ [10]))) /\
  (forall n p rest, 0 <= n < 2 ^ 64 -> prefix_of n p -> Forall byte_ok rest ->
     let ended := hello ur c sg alloc (Some (p ++ rest)) in
     (c_dmax c < n -> ended = Some (Returned 1 [] (codes "read failed: reason=4 at=text" ++ [10]))) /\
     (n <= c_dmax c -> alloc n = false -> ended = Some Uncaught) /\
     (n <= c_dmax c -> alloc n = true -> Z.of_nat (List.length rest) < n ->
        ended = Some (Returned 1 [] (codes "read failed: reason=0 at=text" ++ [10]))) /\
     (forall text tail, n <= c_dmax c -> alloc n = true ->
        rest = text ++ tail -> Z.of_nat (List.length text) = n ->
        exists ds, numeral n ds /\
          ended = Some (Returned 0 (codes "len=" ++ ds ++ codes " text=" ++ text ++ [10]) []))).
Proof. intros ur c sg alloc (A & B & C & D). exact (hello_runs ur c sg alloc A B C D). Qed.
Print Assumptions C103_runs.

(** The cases are all there are, and a number has one numeral. *)
Theorem C103_every : forall bs, Forall byte_ok bs -> (8 <= List.length bs)%nat ->
  exists n p rest, 0 <= n < 2 ^ 64 /\ prefix_of n p /\ bs = p ++ rest.
Proof. exact every_file. Qed.
Print Assumptions C103_every.

Theorem C103_numeral : forall n ds es, numeral n ds -> numeral n es -> ds = es.
Proof. exact numeral_one. Qed.
Print Assumptions C103_numeral.

(** What make_sample.py writes, for any text within the ceiling, is printed back. *)
Theorem C103_sample : forall ur c sg alloc text, machine c ->
  Forall byte_ok text -> Z.of_nat (List.length text) <= c_dmax c ->
  alloc (Z.of_nat (List.length text)) = true ->
  exists bs ds, sample_of text = Some bs /\ numeral (Z.of_nat (List.length text)) ds /\
    hello ur c sg alloc (Some bs) =
    Some (Returned 0 (codes "len=" ++ ds ++ codes " text=" ++ text ++ [10]) []).
Proof. intros ur c sg alloc text (A & B & C & D). exact (hello_sample ur c sg alloc A B C D text). Qed.
Print Assumptions C103_sample.

Example C103_case :
  let c := mkCfg Big Little false 8 16777216 in
  let ur := fun f (_ : Z) => (None, f) in
  let all := fun _ : Z => true in
  machine c /\
  hello ur c true all (sample_of (codes "hello, s2s")) =
    Some (Returned 0 (codes "len=10 text=hello, s2s" ++ [10]) []) /\
  hello ur c true all (Some [255; 255; 255; 255; 0; 0; 0; 0; 104]) =
    Some (Returned 1 [] (codes "read failed: reason=4 at=text" ++ [10])) /\
  hello ur c true (fun n => n <? 3) (sample_of [104; 200; 10]) = Some Uncaught /\
  hello ur c true all (sample_of [104; 200]) =
    Some (Returned 0 (codes "len=2 text=h" ++ [200; 10]) []).
Proof. vm_compute. intuition congruence. Qed.
