(** * What the statements about the single header say *)
From Coq Require Export Relations Sorting.Sorted Sorting.Permutation.
From Verif Require Export Amalgam.

(** File [a] has a line that includes the existing file [b]. *)
Definition direct (src : source) (a b : ident) : Prop :=
  exists ls, In (a, ls) src /\ In (LInc b) ls /\ In b (map fst src).

(** By way of one include or more; of any number. *)
Definition by_way (src : source) : ident -> ident -> Prop := clos_trans _ (direct src).
Definition needs (src : source) : ident -> ident -> Prop := clos_refl_trans _ (direct src).

Definition acyclic (src : source) : Prop := forall a, ~ by_way src a a.

(** Every file comes after the files it includes. *)
Definition in_order (src : source) (fs : list ident) : Prop :=
  forall l a r b, fs = l ++ a :: r -> direct src a b -> In b l.

Definition code (src : source) (f : ident) : list ident := code_of (text src f).

(** What the preprocessor makes of a file with an include guard, standard headers aside:
    [pre src g f g' out]: with the guards [g] defined, including [f] gives the lines [out]
    and leaves the guards [g'] defined. *)
Inductive pre (src : source) : list ident -> ident -> list ident -> list ident -> Prop :=
| pre_again g f : In f g -> pre src g f g []
| pre_open g f ls g' out : ~ In f g -> In (f, ls) src -> pre_lines src (f :: g) ls g' out ->
    pre src g f g' out
with pre_lines (src : source) : list ident -> list line -> list ident -> list ident -> Prop :=
| pre_end g : pre_lines src g [] g []
| pre_inc g f g1 o1 ls g2 o2 : pre src g f g1 o1 -> pre_lines src g1 ls g2 o2 ->
    pre_lines src g (LInc f :: ls) g2 (o1 ++ o2)
| pre_std g h ls g2 o2 : pre_lines src g ls g2 o2 -> pre_lines src g (LStd h :: ls) g2 o2
| pre_code g t ls g2 o2 : pre_lines src g ls g2 o2 -> pre_lines src g (LCode t :: ls) g2 (t :: o2).

(** Files include before they say anything. *)
Definition includes_first (src : source) : Prop :=
  forall f l t r h, In (f, l ++ LCode t :: r) src -> ~ In (LInc h) r.

Definition files_of (o : amalgamated) : list ident :=
  match o with Bad => [] | Single _ bs => map fst bs end.
