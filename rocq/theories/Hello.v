(** * examples/hello_s2s.cpp and examples/make_sample.py *)
From Coq Require Import String Ascii List.
From Verif Require Export Read FileStream.
Import ListNotations.
Local Open Scope string_scope.
Local Open Scope list_scope.
Local Open Scope Z_scope.

(** examples/hello_s2s.cpp:13-17.  [sg]: whether [char] is signed. *)
Definition message (sg : bool) : fields :=
  FCons "len" (FFixed (TScalar (SInt 8 false)) 8) CNone
 (FCons "text" (FVar (TScalar (SInt 1 sg)) (LenField "len") None) CNone FNil).

(** The bytes of a string literal. *)
Definition codes (s : string) : list Z :=
  map (fun a => Z.of_nat (nat_of_ascii a)) (list_ascii_of_string s).

(** [std::format] of a nonnegative integer with "{}". *)
Fixpoint digits (fuel : nat) (n : Z) : list Z :=
  match fuel with
  | O => []
  | S f => if n <? 10 then [48 + n] else digits f (n / 10) ++ [48 + n mod 10]
  end.
Definition shown_int (n : Z) : list Z := digits (S (Z.to_nat (Z.log2 n))) n.

(** include/error/cast_error.hpp:9-25: the value of an enumerator. *)
Definition reason_code (r : reason) : Z :=
  match r with
  | BufferExhaustion => 0
  | ValidationFailure => 1
  | TypeDeductionFailure => 2
  | FoundContradictingLength => 3
  | ExcessiveLength => 4
  end.

(** A [char] written out. *)
Definition char_byte (v : val) : Z := match v with VZ z => z mod 256 | _ => 0 end.

(** What a program does: return from [main] having written to the two standard streams,
    or be ended by an exception nobody catches. *)
Inductive ended :=
| Returned (code : Z) (out err : list Z)
| Uncaught.

(** hello_s2s.cpp:19-38 [main].  [sample]: the contents of sample.bin, if it can be
    opened.  [None]: no meaning (undefined behaviour, or does not compile).  Output is to
    files, so that [std::println] does not transcode. *)
Definition hello (ur : file -> Z -> option (list Z) * file) (c : cfg) (sg : bool)
    (alloc : Z -> bool) (sample : option (list Z)) : option ended :=
  match sample with
  | None => Some (Returned 1 [] (codes "cannot open sample.bin" ++ [10]))
  | Some bs =>
      match fst (fst (rrun (file_istream ur) alloc (struct_cast c (message sg))
                           (mkFile bs 0 Positioned false))) with
      | Ok [_; VSeq text] =>
          Some (Returned 0 (codes "len=" ++ shown_int (Z.of_nat (List.length text)) ++
                            codes " text=" ++ map char_byte text ++ [10]) [])
      | Err (r, at_) =>
          Some (Returned 1 [] (codes "read failed: reason=" ++ shown_int (reason_code r) ++
                               codes " at=" ++ codes at_ ++ [10]))
      | Throw => Some Uncaught
      | _ => None
      end
  end.

(** examples/make_sample.py:13-14 with any text; [to_bytes] raises [OverflowError] when
    the number does not fit. *)
Definition sample_of (text : list Z) : option (list Z) :=
  let n := Z.of_nat (List.length text) in
  if n <? 2 ^ 64 then Some (le_enc 8 n ++ text) else None.
