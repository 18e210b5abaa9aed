(* What it means for a pattern to match a part of a string, independent of the compiled program. *)
From Verif Require Import Base Regex_Model.
From Verif Require Utf_Spec.
Open Scope nat_scope.

(* the bytes w stand in s at position i *)
Definition stands (s : list N) (i : nat) (w : list N) : Prop := exists pre post, s = pre ++ w ++ post /\ length pre = i.

(* the byte strings a character class stands for: the encodings of the characters in its ranges *)
Definition inclass (rl : list (N * N)) (c : N) : Prop := exists r, In r rl /\ (fst r <= c <= snd r)%N.
Definition encoded (rl : list (N * N)) (w : list N) : Prop := exists c, inclass rl c /\ w = Utf_Spec.utf8 c.

(* the anchors *)
Definition atbol (s : list N) (i : nat) : Prop := i = 0 \/ exists j, i = S j /\ nth_error s j = Some 10%N.
Definition ateol (s : list N) (i : nat) : Prop := i = length s \/ nth_error s i = Some 10%N.
(* a word character starts at i; the character before i is a word character (i > 0) *)
Definition wordat (isword : list N -> bool) (s : list N) (i : nat) : Prop := isword (skipn i s) = true.
Definition wordbefore (isword : list N -> bool) (s : list N) (i : nat) : Prop := 0 < i /\ isword (skipn (prevchar s i) s) = true.
Definition atbow isword s i : Prop := wordat isword s i /\ ~ wordbefore isword s i.
Definition ateow isword s i : Prop := wordbefore isword s i /\ (i = length s \/ ~ wordat isword s i).

Section Matches.
Variable isword : list N -> bool.
Variable cls : list (N * N) -> list N -> Prop.    (* the byte strings of a class *)
Variable s : list N.
(* t matches s from i to j; the groups g become g' *)
Inductive matches : ast -> nat -> list group -> nat -> list group -> Prop :=
| m_altl a b i g j g' : matches a i g j g' -> matches (Alt a b) i g j g'
| m_altr a b i g j g' : matches b i g j g' -> matches (Alt a b) i g j g'
| m_cat a b i g k g1 j g' : matches a i g k g1 -> matches b k g1 j g' -> matches (Cat a b) i g j g'
| m_star0 a r i g : matches (Star a r) i g i g
| m_star a r i g k g1 j g' : matches a i g k g1 -> matches (Star a r) k g1 j g' -> matches (Star a r) i g j g'
| m_plus a r i g k g1 j g' : matches a i g k g1 -> matches (Star a r) k g1 j g' -> matches (Plus a r) i g j g'
| m_quest0 a i g : matches (Quest a) i g i g
| m_quest a i g j g' : matches a i g j g' -> matches (Quest a) i g j g'
| m_chr c i g : stands s i (Utf_Spec.utf8 c) -> matches (Chr c) i g (i + length (Utf_Spec.utf8 c)) g
| m_ranges rl w i g : cls rl w -> stands s i w -> matches (Ranges rl) i g (i + length w) g
| m_cap m a i g j g' : matches a i (setlo g m i) j g' -> matches (Cap m a) i g j (sethi g' m j)
| m_bol i g : atbol s i -> matches Bol i g i g
| m_eol i g : ateol s i -> matches Eol i g i g
| m_bow i g : atbow isword s i -> matches Bow i g i g
| m_eow i g : ateow isword s i -> matches Eow i g i g.
End Matches.

(* no group set yet *)
Definition nogroups : list group := repeat (None, None) 16.
(* t matches s from i to j, whatever the groups *)
Definition matchat isword (t : ast) (s : list N) (i j : nat) : Prop :=
  exists g, matches isword encoded s t i nogroups j g.
