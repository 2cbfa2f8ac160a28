(** * Type ids as the program hands them out, meta::invoke, and static_array *)
From Verif Require Export Static.

(** ** include/lib/metaprog/mp.hpp
    The types of a program are numbers.  The compiler state is the list of the ids
    given so far, each with its type. *)
Definition cxx := nat.
(** include/lib/metaprog/mp.hpp:14-43. *)
Definition registry := list (Z * cxx).

(** include/lib/metaprog/mp.hpp:26,30: [get] is defined for the key. *)
Definition given_ids (R : registry) (i : Z) : bool := existsb (Z.eqb i) (map fst R).

(** include/lib/metaprog/mp.hpp:49-50 [type_of]: what [get] returns for the key. *)
Fixpoint type_of (R : registry) (i : Z) : option cxx :=
  match R with
  | [] => None
  | (j, t) :: R' => if Z.eqb j i then Some t else type_of R' i
  end.

(** The id in an instantiation of [type_id_value] there is already.
    In the code: include/lib/metaprog/mp.hpp:19-43. *)
Fixpoint known_id (R : registry) (t : cxx) : option Z :=
  match R with
  | [] => None
  | (i, u) :: R' => if Nat.eqb u t then Some i else known_id R' t
  end.

(** include/lib/metaprog/mp.hpp:46-47 [type_id<T>]: the first mention of a type instantiates [type_id_value<T>], which
    searches for an unused id and defines [get] for it; later mentions find that
    instantiation.  [None]: ill formed ([get] defined twice). *)
Definition type_id (szw fuel : nat) (R : registry) (t : cxx) : option (Z * registry) :=
  match known_id R t with
  | Some i => Some (i, R)
  | None =>
      match gen szw (given_ids R) fuel 0 max_type_id with
      | Some i => if given_ids R i then None else Some (i, R ++ [(i, t)])
      | None => None
      end
  end.

(** What a trait has for one type: [::value], [::type], or neither.  All values of one
    trait are taken to have one type.
    In the code: include/lib/metaprog/mp.hpp:72-76. *)
Inductive trait_of := HasValue (v : Z) | HasType (t : cxx) | HasNeither.

(** What the function for one id returns.
    In the code: include/lib/metaprog/mp.hpp:68-78. *)
Inductive answer := AValue (v : Z) | AnId (i : Z).

(** 69-76, the lambda for one id.  It has no constraint, so a trait with neither member is
    an error and not a reason to leave the id out.
    In the code: include/lib/metaprog/mp.hpp:68-78. *)
Definition dispatch_one (szw fuel : nat) (tr : cxx -> trait_of) (R : registry) (i : Z)
  : option (answer * registry) :=
  match type_of R i with
  | None => None
  | Some t =>
      match tr t with
      | HasValue v => Some (AValue v, R)
      | HasType u =>
          match type_id szw fuel R u with
          | Some (j, R') => Some (AnId j, R')
          | None => None
          end
      | HasNeither => None
      end
  end.

(** include/lib/metaprog/mp.hpp:52-66: one function for every id below [n]. *)
Fixpoint dispatch_from (szw fuel : nat) (tr : cxx -> trait_of) (R : registry) (i : Z) (n : nat)
  : option (list answer * registry) :=
  match n with
  | O => Some ([], R)
  | S n' =>
      match dispatch_one szw fuel tr R i with
      | None => None
      | Some (a, R1) =>
          match dispatch_from szw fuel tr R1 (i + 1) n' with
          | None => None
          | Some (l, R2) => Some (a :: l, R2)
          end
      end
  end.

(** The functions are the elements of one [std::array], so their types are the same, and
    there is at least one.
    In the code: include/lib/metaprog/mp.hpp:55. *)
Definition same_answer (a b : answer) : bool :=
  match a, b with AValue _, AValue _ | AnId _, AnId _ => true | _, _ => false end.
(** include/lib/metaprog/mp.hpp:55. *)
Definition one_type (l : list answer) : bool :=
  match l with [] => false | a :: l' => forallb (same_answer a) l' end.

(** include/lib/metaprog/mp.hpp:52-78 [invoke<Trait>(meta)].  [fresh]: the closure type that is the default argument;
    its id is the size of the table.  [None]: ill formed, or an index out of the table,
    which no constant expression survives. *)
Definition invoke (szw fuel : nat) (tr : cxx -> trait_of) (R : registry) (fresh : cxx) (meta : Z)
  : option (answer * registry) :=
  match type_id szw fuel R fresh with
  | None => None
  | Some (n, R1) =>
      match dispatch_from szw fuel tr R1 0 (Z.to_nat n) with
      | None => None
      | Some (l, R2) =>
          if one_type l && (0 <=? meta) then
            match nth_error l (Z.to_nat meta) with
            | Some a => Some (a, R2)
            | None => None
            end
          else None
      end
  end.

(** ** include/lib/containers/static_array.hpp *)

(** include/lib/containers/static_array.hpp:19: [values[i] = x]. *)
Fixpoint set_at {A} (l : list A) (i : nat) (x : A) : list A :=
  match l, i with
  | [], _ => []
  | _ :: l', O => x :: l'
  | a :: l', S i' => a :: set_at l' i' x
  end.

(** include/lib/containers/static_array.hpp:17-21: the fold over the initialisers. *)
Fixpoint fill_from {A} (values : list A) (i : nat) (entries : list A) : list A :=
  match entries with
  | [] => values
  | x :: es => fill_from (set_at values i x) (S i) es
  end.

(** include/lib/containers/static_array.hpp:12-22: value-initialised elements, then the initialisers (already converted to [T]),
    which must be exactly [N]; there is no array of no elements. *)
Definition make_array {A} (zero : A) (N : nat) (entries : list A) : option (list A) :=
  if negb (Nat.eqb N 0) && Nat.eqb (length entries) N
  then Some (fill_from (repeat zero N) 0 entries)
  else None.

(** include/lib/containers/static_array.hpp:23-25; [None]: out of bounds. *)
Definition array_at {A} (values : list A) (i : nat) : option A := nth_error values i.

(** include/lib/containers/static_array.hpp:26-27: the elements between [begin()] and [end()]. *)
Fixpoint array_walk {A} (values : list A) (from to : nat) : option (list A) :=
  match to with
  | O => Some []
  | S to' =>
      match array_at values from with
      | None => None
      | Some x =>
          match array_walk values (S from) to' with
          | None => None
          | Some l => Some (x :: l)
          end
      end
  end.

(** include/lib/containers/static_array.hpp:28. *)
Definition array_size (N : nat) : nat := N.
(** include/lib/containers/static_array.hpp:29. *)
Definition array_empty (N : nat) : bool := Nat.eqb N 0.
(** include/lib/containers/static_array.hpp:30. *)
Definition array_capacity (N : nat) : nat := N.
