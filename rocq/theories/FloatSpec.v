(** * Vocabulary for floating-point fields *)
From Verif Require Export Spec.
Local Open Scope Z_scope.

(** A floating-point type of [w] bytes has [eb] bits of exponent and [mb] bits of
    fraction: IEEE 754 binary32 or binary64. *)
Definition is_fmt (w : nat) (eb mb : Z) : Prop :=
  w = 4%nat /\ eb = 8 /\ mb = 23 \/ w = 8%nat /\ eb = 11 /\ mb = 52.

(** The bits of the numbers of [v] and of [w] are the same, except that zeros may
    differ in sign. *)
Inductive same_bits_but_zero : val -> val -> Prop :=
| sb_int : forall z, same_bits_but_zero (VZ z) (VZ z)
| sb_same : forall w z, fdec w z <> FNaN -> same_bits_but_zero (VF w z) (VF w z)
| sb_zero : forall w a b, (a = 0 \/ 2 * a = pow256 w) -> (b = 0 \/ 2 * b = pow256 w) ->
    same_bits_but_zero (VF w a) (VF w b)
| sb_seq : forall l m, Forall2 same_bits_but_zero l m -> same_bits_but_zero (VSeq l) (VSeq m).

(** The pattern [z] stands for the number of the format that is nearest to n / 2^1074; of
    two equally near, for the one whose last bit is 0. *)
Definition nearest (w : nat) (n z : Z) : Prop :=
  exists m, fdec w z = FFin m /\ 0 <= n * m /\
    forall z' m', 0 <= z' < pow256 w -> fdec w z' = FFin m' ->
      Z.abs (n - m) <= Z.abs (n - m') /\
      (Z.abs (n - m) = Z.abs (n - m') -> m' <> m -> Z.even z = true).

(** [v] is the number n / 2^1074. *)
Inductive stands_for : val -> Z -> Prop :=
| nb_int : forall z, stands_for (VZ z) (units z)
| nb_float : forall u y n, fdec u y = FFin n -> stands_for (VF u y) n.
