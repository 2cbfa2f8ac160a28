(** * Bytes, object representations, byte order

    Bytes are integers [0 <= b < 256].  The object representation of an integer
    of [w] bytes is the list of its bytes from the lowest address upwards. *)
From Coq Require Export List ZArith Lia Bool.
Export ListNotations.
Global Open Scope Z_scope.

(** A [char] of a stream, include/stream/stream_traits.hpp:17-44. *)
Definition byte_ok (b : Z) : Prop := 0 <= b < 256.

(** [std::endian], include/stream/byte_order.hpp:34-40. *)
Inductive endian := Little | Big.

(** 256^w: one more than the largest unsigned integer of [w] bytes.
    In the code: used for include/field_write/derived_value.hpp:299-305. *)
Definition pow256 (w : nat) : Z := 256 ^ Z.of_nat w.

(** The unsigned integer whose bytes, least significant first, are [l].
    In the code: what [std::bit_cast] and [reinterpret_cast] do at include/field_read/read_impl.hpp:36-66. *)
Fixpoint le_dec (l : list Z) : Z :=
  match l with
  | [] => 0
  | b :: l' => b + 256 * le_dec l'
  end.

(** The [w] low bytes of [z], least significant first.
    In the code: what include/lib/memory/address_manip.hpp:37-68 exposes. *)
Fixpoint le_enc (w : nat) (z : Z) : list Z :=
  match w with
  | O => []
  | S w' => z mod 256 :: le_enc w' (z / 256)
  end.

(** Unsigned integer stored in memory [l] on a host with byte order [h].
    Models loading an object whose bytes were filled in through
    [reinterpret_cast<char*>(&obj)] (include/lib/memory/address_manip.hpp:12-36)
    or [std::bit_cast] (address_manip.hpp:65-68). *)
Definition mem_dec (h : endian) (l : list Z) : Z :=
  match h with Little => le_dec l | Big => le_dec (rev l) end.

(** Memory contents of the unsigned integer [z] of [w] bytes on host [h]
    (address_manip.hpp:37-60, 65-68). *)
Definition mem_enc (h : endian) (w : nat) (z : Z) : list Z :=
  match h with Little => le_enc w z | Big => rev (le_enc w z) end.

(** [std::byteswap] on a [w]-byte unsigned integer (used by
    include/field_read/read_impl.hpp:101, include/field_write/write_impl.hpp:57,
    include/stream/byte_order.hpp:22). *)
Definition byteswap (w : nat) (z : Z) : Z := le_dec (rev (le_enc w z)).

(** include/stream/byte_order.hpp:36-38. *)
Definition endian_eqb (a b : endian) : bool :=
  match a, b with Little, Little | Big, Big => true | _, _ => false end.

Global Arguments Z.mul : simpl never.
Global Arguments Z.add : simpl never.
Global Arguments Z.sub : simpl never.
Global Arguments Z.div : simpl never.
Global Arguments Z.modulo : simpl never.
Global Arguments Z.pow : simpl never.
Global Arguments Z.of_nat : simpl never.
Global Arguments Z.to_nat : simpl never.
