(* C103, C105: the generator xoroshiro128+ with the constants 55, 14, 36 (D. Blackman and S. Vigna).  Nothing here is taken
   from the code. *)
From Coq Require Import List NArith.
From Verif Require Import Hash_Spec.
Import ListNotations.
Open Scope N_scope.

Definition number (s : N * N) : N := wadd 64 (fst s) (snd s).
Definition next (s : N * N) : N * N :=
  let x := N.lxor (snd s) (fst s) in
  (N.lxor (N.lxor (rotl 64 55 (fst s)) x) (N.shiftl x 14 mod 2 ^ 64), rotl 64 36 x).
(* the first k numbers of a generator *)
Fixpoint numbers (k : nat) (s : N * N) : list N :=
  match k with O => [] | S k => number s :: numbers k (next s) end.
