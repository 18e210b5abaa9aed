(* What sorting and searching mean, in terms of the comparison the caller passes. *)
From Verif Require Import Base Sort_Model.

(* a comparison that orders its arguments: antisymmetric in its answer, and transitive.  Distinct values may
   compare Equal. *)
Definition orders {A} (cmp : A -> A -> order) : Prop :=
  (forall a b, cmp a b = Before <-> cmp b a = After) /\
  (forall a b c, cmp a b <> After -> cmp b c <> After -> cmp a c <> After).

(* no element comes after a later one *)
Definition ascending {A} (cmp : A -> A -> order) (l : list A) : Prop :=
  forall i j x y, i < j -> nth_error l i = Some x -> nth_error l j = Some y -> cmp x y <> After.

(* the slice is arranged for a search for key: the elements before the key, then those equal, then those after *)
Definition arranged {T K} (cmp : T -> K -> order) (sl : list T) (key : K) : Prop :=
  forall i j x y, i <= j -> nth_error sl i = Some x -> nth_error sl j = Some y ->
  (cmp y key = Before -> cmp x key = Before) /\ (cmp x key = After -> cmp y key = After).

(* the element at a (signed) index *)
Definition element {T} (sl : list T) (i : Z) (x : T) : Prop := (0 <= i)%Z /\ nth_error sl (Z.to_nat i) = Some x.
