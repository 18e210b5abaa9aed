(* The integer a big number stands for, and when it is normalised. *)
From Verif Require Import Base Bigint_Model.
Open Scope Z_scope.

Fixpoint val (l : list Z) : Z := match l with [] => 0 | d :: l => d + 2 ^ 32 * val l end.
Definition number (a : big) : Z := sign a * val (dig a).
Definition limb (d : Z) : Prop := 0 <= d < 2 ^ 32.
(* digits are 32-bit, the top digit is not zero, the sign is -1 or 1, and 0 exactly for zero *)
Definition normal (a : big) : Prop :=
  Forall limb (dig a) /\ (dig a = [] /\ sign a = 0 \/ dig a <> [] /\ last (dig a) 0 <> 0 /\ (sign a = 1 \/ sign a = -1)).
