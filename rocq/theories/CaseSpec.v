(** * The order in which alternatives are listed: what the statements of PropsCase.v say

    Independent of the reader and the writer. *)
From Verif Require Export Spec.

(** [p] moves the positions below [n] among themselves, [q] moves them back. *)
Definition shuffle (n : nat) (p q : nat -> nat) : Prop :=
  forall i, (i < n)%nat -> (p i < n /\ q i < n /\ q (p i) = i /\ p (q i) = i)%nat.

(** The [n] entries of the first list, each moved from [i] to [p i]. *)
Definition moved {A} (n : nat) (p : nat -> nat) (l l' : list A) : Prop :=
  length l = n /\ length l' = n /\
  forall i, (i < n)%nat -> nth_error l' (p i) = nth_error l i.

Definition alts_moved (n : nat) (p : nat -> nat) (al al' : alts) : Prop :=
  a_len al = n /\ a_len al' = n /\
  forall i, (i < n)%nat -> a_nth (p i) al' = a_nth i al.

(** The same cases or branches in another order. *)
Inductive guide_moved (n : nat) (p : nat -> nat) : guide -> guide -> Prop :=
| gm_field id s cs cs' : moved n p cs cs' -> guide_moved n p (GField id s cs) (GField id s cs')
| gm_comp f r ids cs cs' : moved n p cs cs' -> guide_moved n p (GComp f r ids cs) (GComp f r ids cs')
| gm_ladder brs brs' : moved n p brs brs' -> guide_moved n p (GLadder brs) (GLadder brs').

(** The field, its cases and alternatives listed in another order. *)
Definition reordered (p q : nat -> nat) (t t' : fty) : Prop :=
  exists g al g' al',
    t = FUnion g al /\ t' = FUnion g' al' /\ shuffle (a_len al) p q /\
    guide_moved (a_len al) p g g' /\ alts_moved (a_len al) p al al'.

(** The same value held, under its new position. *)
Definition renumber (p : nat -> nat) (v : val) : val :=
  match v with VAlt i x => VAlt (p i) x | _ => v end.

(** Case or branch [i] applies, whether or not an earlier one does too. *)
Definition applies (E : env) (g : guide) (i : nat) : Prop :=
  match g with
  | GField id s cs => exists z m,
      lookup E id = Some (VZ z) /\ nth_error cs i = Some m /\ cxx_eq s z (fst m) (snd m) = true
  | GComp f r ids cs => exists vs m,
      lookups E ids = Some vs /\ nth_error cs i = Some m /\
      cxx_eq r (conv r (f vs)) (fst m) (snd m) = true
  | GLadder brs => exists b vs,
      nth_error brs i = Some b /\ lookups E (snd b) = Some vs /\ fst b vs = true
  end.

Definition exclusive (t : fty) : Prop :=
  match t with
  | FUnion g _ => forall E i j, applies E g i -> applies E g j -> i = j
  | _ => True
  end.

(** The match values are values of one type: of the discriminant's, or all of one of
    their own. *)
Definition one_type (s : sty) (cs : list (sty * Z)) : Prop :=
  Forall (fun m => sc_in s (snd m) = true) cs \/
  exists u, Forall (fun m => fst m = u /\ sc_in u (snd m) = true) cs.

(** A switch, with the type of its discriminant and its cases. *)
Inductive switch_of : fty -> sty -> list (sty * Z) -> Prop :=
| so_field id s cs al : switch_of (FUnion (GField id s cs) al) s cs
| so_comp f r ids cs al : switch_of (FUnion (GComp f r ids cs) al) r cs.

(** A discriminant in a field is filled in on writing, not compared. *)
Definition from_field (t : fty) : Prop :=
  match t with FUnion (GField _ _ _) _ => True | _ => False end.
