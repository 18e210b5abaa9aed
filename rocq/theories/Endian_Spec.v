(* Byte order, independently of the code: the bytes of an integer in positional notation. *)
From Verif Require Import Base.
Open Scope Z_scope.

(* the value of little-endian and of big-endian digits base 256 *)
Fixpoint little (l : list Z) : Z := match l with [] => 0 | b :: l => b + 256 * little l end.
Definition big (l : list Z) : Z := little (rev l).
Definition isbyte (b : Z) : Prop := 0 <= b < 256.
(* l is the n low bytes of v, least significant first *)
Definition low_bytes (n : nat) (v : Z) (l : list Z) : Prop :=
  length l = n /\ Forall isbyte l /\ little l = v mod 256 ^ Z.of_nat n.
