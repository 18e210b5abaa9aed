(* Occurrence, splitting, joining and lexicographic order of byte strings. *)
From Verif Require Import Base Sort_Model.
Open Scope N_scope.

(* n occurs in h at offset i *)
Definition occurs_at (h n : list N) (i : nat) : Prop := exists p q, h = p ++ n ++ q /\ length p = i.
Definition occurs (h n : list N) : Prop := exists i, occurs_at h n i.
Definition first_at (h n : list N) (i : nat) : Prop := occurs_at h n i /\ forall j, occurs_at h n j -> (i <= j)%nat.
Definition last_at (h n : list N) (i : nat) : Prop := occurs_at h n i /\ forall j, occurs_at h n j -> (j <= i)%nat.

(* s cut at the successive leftmost occurrences of d *)
Inductive cut (d : list N) : list N -> list (list N) -> Prop :=
| cut_end s : ~ occurs s d -> cut d s [s]
| cut_more p r ps : first_at (p ++ d ++ r) d (length p) -> cut d r ps -> cut d (p ++ d ++ r) (p :: ps).

(* the strings one after the other, d between each two *)
Fixpoint joined (strings : list (list N)) (d : list N) : list N :=
  match strings with
  | [] => []
  | [x] => x
  | x :: rest => x ++ d ++ joined rest d
  end.

(* a comes before b in byte-wise lexicographic order: a is a proper prefix of b, or smaller at the first difference *)
Inductive lex_before : list N -> list N -> Prop :=
| lex_prefix a y r : lex_before a (a ++ y :: r)
| lex_diff p x y a b : x < y -> lex_before (p ++ x :: a) (p ++ y :: b).
Definition prefix_of (p s : list N) : Prop := exists r, s = p ++ r.
Definition suffix_of (p s : list N) : Prop := exists r, s = r ++ p.
