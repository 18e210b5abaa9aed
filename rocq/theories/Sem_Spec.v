(* What callers of a semaphore see. *)
From Verif Require Import Base.
Open Scope Z_scope.

Inductive event :=
| SemRet (t : nat)                   (* semwait returned to thread t *)
| SemTry (t : nat) (ok : bool)       (* semtrywait returned ok to thread t *)
| PostCall (t : nat).                (* thread t called sempost *)
Definition got (e : event) : Z := match e with SemRet _ | SemTry _ true => 1 | _ => 0 end.
Definition put (e : event) : Z := match e with PostCall _ => 1 | _ => 0 end.
Definition total (f : event -> Z) (tr : list event) : Z := fold_right (fun e s => f e + s) 0 tr.
(* Never more units taken than the initial value and the posts so far. *)
Definition conserves (init : Z) (tr : list event) : Prop := total got tr <= init + total put tr.
