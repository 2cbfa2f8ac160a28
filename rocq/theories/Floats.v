(** * Floating-point numbers *)
From Verif Require Export Bytes.

(** What a floating-point object holds: not a number, an infinity (of sign
    [neg]), or a finite number.  [FFin n] is n / 2^1074: 2^-1074 is the smallest
    positive [double], and every finite [float] and [double] is a whole multiple
    of it.  The two zeros are the same number. *)
Inductive fval :=
| FNaN
| FInf (neg : bool)
| FFin (n : Z).

(** IEEE 754 binary32 ([float], 4 bytes) and binary64 ([double], 8 bytes): bits of
    the exponent, bits of the fraction, and the binary logarithm of the format's
    smallest positive number divided by 2^-1074.  Other formats ([long double])
    are not modelled. *)
Definition ffmt (w : nat) : option (Z * Z * Z) :=
  match w with
  | 4%nat => Some (8, 23, 925)
  | 8%nat => Some (11, 52, 0)
  | _ => None
  end.

(** The number with bit pattern [z]: sign, exponent, fraction from the top. *)
Definition fdec (w : nat) (z : Z) : fval :=
  match ffmt w with
  | None => FNaN
  | Some (eb, mb, u) =>
      let m := z mod 2 ^ mb in
      let e := z / 2 ^ mb mod 2 ^ eb in
      let neg := negb (z / 2 ^ (mb + eb) =? 0) in
      if e =? 2 ^ eb - 1 then if m =? 0 then FInf neg else FNaN
      else
        let a := (if e =? 0 then m else 2 ^ mb + m) * 2 ^ (Z.max e 1 - 1) * 2 ^ u in
        FFin (if neg then - a else a)
  end.

(** The built-in [a == b] and [a < b]: false if either is not a number. *)
Definition feqb (a b : fval) : bool :=
  match a, b with
  | FInf x, FInf y => Bool.eqb x y
  | FFin x, FFin y => x =? y
  | _, _ => false
  end.

Definition fltb (a b : fval) : bool :=
  match a, b with
  | FFin x, FFin y => x <? y
  | FInf true, FInf false | FInf true, FFin _ | FFin _, FInf false => true
  | _, _ => false
  end.

(** The pattern of the number nearest to n / 2^1074; of two equally near the one whose
    pattern is even; an infinity if it is too large: the conversion to a floating-point
    type in the rounding mode programs start in. *)
Definition fenc (w : nat) (n : Z) : Z :=
  match ffmt w with
  | None => 0
  | Some (eb, mb, u) =>
      let a := Z.abs n in
      let l := Z.max (Z.log2 a - mb) u in
      let q := a / 2 ^ l in
      let r := 2 * (a mod 2 ^ l) in
      let q' := if (2 ^ l <? r) || ((r =? 2 ^ l) && Z.odd q) then q + 1 else q in
      (if n <? 0 then 2 ^ (mb + eb) else 0) + Z.min ((l - u) * 2 ^ mb + q') ((2 ^ eb - 1) * 2 ^ mb)
  end.

(** A whole number as a floating-point one, before it is rounded. *)
Definition units (z : Z) : Z := z * 2 ^ 1074.

(** Converting to the type of [w] bytes. *)
Definition fround (w : nat) (x : fval) : fval :=
  match x with FFin n => fdec w (fenc w n) | _ => x end.

Arguments fenc : simpl never.
Arguments units : simpl never.
Arguments fround : simpl never.
