(* Positional numerals. *)
From Verif Require Import Base.
Open Scope Z_scope.

Definition digit_char (d : Z) : N := Z.to_N (if d <? 10 then 48 + d else 87 + d).   (* 0-9 then a-z *)
Definition positional (base : Z) (ds : list Z) : Z := fold_left (fun a d => a * base + d) ds 0.
(* s is the numeral of n >= 0 in base, without superfluous leading zeros *)
Definition numeral (base n : Z) (s : list N) : Prop :=
  exists ds, s = map digit_char ds /\ Forall (fun d => 0 <= d < base) ds /\ positional base ds = n /\
    (ds = [0] \/ exists d ds', ds = d :: ds' /\ d <> 0).
