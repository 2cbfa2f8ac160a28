(** * The checks of the documentation: what the statements of PropsDoc.v say

    Independent of the scripts: what the regular expressions match, which blocks a page
    shows, which region a source marks, which pages the navigation lists. *)
From Coq Require Export String Ascii List Bool Arith Permutation.
Export ListNotations.
Open Scope string_scope.

(** Blanks, and characters of words and of paths. *)
Definition blank_char (a : ascii) : Prop :=
  (9 <= nat_of_ascii a <= 13 \/ 28 <= nat_of_ascii a <= 32)%nat.
Definition word_char (a : ascii) : Prop :=
  (48 <= nat_of_ascii a <= 57 \/ 65 <= nat_of_ascii a <= 90 \/
   97 <= nat_of_ascii a <= 122 \/ nat_of_ascii a = 95)%nat.
Definition path_char (a : ascii) : Prop :=
  word_char a \/ a = "."%char \/ a = "/"%char \/ a = "-"%char.

Fixpoint all_chars (P : ascii -> Prop) (s : string) : Prop :=
  match s with
  | EmptyString => True
  | String a s' => P a /\ all_chars P s'
  end.
Definition blank (s : string) : Prop := all_chars blank_char s.

Definition fence (s : string) : Prop := exists r, s = "```" ++ r.

Definition bound_to (s p : string) : Prop :=
  exists w1 w2 w3 w4, blank w1 /\ blank w2 /\ blank w3 /\ blank w4 /\
    p <> "" /\ all_chars (fun a => ~ blank_char a) p /\
    s = "<!--" ++ w1 ++ "docs:" ++ w2 ++ p ++ w3 ++ "-->" ++ w4.

(** [main] on its own, followed by a parenthesis. *)
Definition has_main (s : string) : Prop :=
  exists a w b, blank w /\ s = a ++ "main" ++ w ++ "(" ++ b /\
    forall a' x, a = a' ++ String x "" -> ~ word_char x.

Definition marks (m s : string) : Prop := exists w w', blank w /\ blank w' /\ s = w ++ m ++ w'.

(** A block: the line its fence is on (from 1), the path on the line above, its lines. *)
Definition shows (ls : list string) (line : nat) (src : option string) (body : list string) : Prop :=
  exists above o rest,
    ls = (above ++ o :: body ++ rest)%list /\
    Nat.even (length (filter (String.prefix "```") above)) = true /\
    fence o /\ (forall l, In l body -> ~ fence l) /\
    (rest = [] \/ exists c r, rest = c :: r /\ fence c) /\
    line = S (length above) /\
    match src with
    | Some p => exists a l, above = (a ++ [l])%list /\ bound_to l p
    | None => ~ exists a l p, above = (a ++ [l])%list /\ bound_to l p
    end.

Definition opens : string -> Prop := marks "// docs-begin".
Definition closes : string -> Prop := marks "// docs-end".

(** From the first opening mark to the first closing one. *)
Definition region (ls r : list string) : Prop :=
  exists a b e z, ls = (a ++ b :: r ++ e :: z)%list /\ opens b /\ closes e /\
    (forall l, In l a -> ~ opens l /\ ~ closes l) /\ (forall l, In l r -> ~ closes l).
(** The first closing mark is above the first opening one. *)
Definition crossed (ls : list string) : Prop :=
  exists a e m b z, ls = (a ++ e :: m ++ b :: z)%list /\ opens b /\ closes e /\
    (forall l, In l a -> ~ opens l /\ ~ closes l) /\ (forall l, In l m -> ~ opens l).

(** ** The navigation *)

Definition nav_line (s p : string) : Prop :=
  exists a w w' x, blank w /\ blank w' /\ s = a ++ ":" ++ w ++ p ++ w' /\
    p = x ++ ".md" /\ x <> "" /\ all_chars path_char p.

Definition nav_head (s : string) : Prop := exists w, blank w /\ s = "nav:" ++ w.
Definition top_key (s : string) : Prop :=
  exists a r, s = String a r /\ ~ blank_char a /\ a <> "#"%char.

Inductive picks : list string -> list string -> Prop :=
| pk_nil : picks [] []
| pk_entry l p ls ps : nav_line l p -> picks ls ps -> picks (l :: ls) (p :: ps)
| pk_other l ls ps : (forall p, ~ nav_line l p) -> picks ls ps -> picks (l :: ls) ps.

(** The pages listed below [nav:], up to the next key. *)
Definition lists (ls ps : list string) : Prop :=
  (exists a n body rest, ls = (a ++ n :: body ++ rest)%list /\
    (forall l, In l a -> ~ nav_head l) /\ nav_head n /\
    (forall l, In l body -> ~ top_key l) /\
    (rest = [] \/ exists k r, rest = k :: r /\ top_key k) /\ picks body ps) \/
  ((forall l, In l ls -> ~ nav_head l) /\ ps = []).
