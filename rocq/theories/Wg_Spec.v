(* What callers of a wait group see. *)
From Verif Require Import Base.
Open Scope Z_scope.

Inductive event := WgRet (t : nat) (* wgwait returned to thread t *) | PostCall (t : nat) (* thread t called wgpost *).
(* wgwait only returns once n posts have been made *)
Fixpoint waits_for (n : Z) (tr : list event) : Prop :=
  match tr with
  | [] => True
  | WgRet _ :: tr => n <= 0 /\ waits_for n tr
  | PostCall _ :: tr => waits_for (n - 1) tr
  end.
