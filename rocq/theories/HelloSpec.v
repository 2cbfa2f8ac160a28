(** * What the example program should print *)
From Verif Require Export Hello.
Local Open Scope Z_scope.

(** [ds]: the decimal numeral of [n] in ASCII, without leading zeros. *)
Definition numeral (n : Z) (ds : list Z) : Prop :=
  ds <> [] /\ Forall (fun d => 48 <= d <= 57) ds /\
  (hd 0 ds = 48 -> ds = [48]) /\
  fold_left (fun a d => 10 * a + (d - 48)) ds 0 = n.

(** The unsigned 64-bit number [n] in little endian, byte by byte. *)
Definition prefix_of (n : Z) (p : list Z) : Prop :=
  length p = 8%nat /\ forall i, (i < 8)%nat -> nth i p 0 = (n / 2 ^ (8 * Z.of_nat i)) mod 256.
