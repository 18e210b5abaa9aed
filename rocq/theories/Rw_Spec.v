(* What callers of a readers-writer lock see, and exclusion stated on it. *)
From Verif Require Import Base.

Inductive event :=
| RdRet (t : nat) | RdTry (t : nat) (ok : bool)    (* rdlock returned; tryrdlock returned ok *)
| WrRet (t : nat) | WrTry (t : nat) (ok : bool)    (* wrlock returned; trywrlock returned ok *)
| RdUnlock (t : nat) | WrUnlock (t : nat).         (* rdunlock / wrunlock was called *)
(* read locks held, and the thread holding the write lock *)
Record held := mkheld { readers : nat; writer : option nat }.
Definition nobody : held := mkheld 0 None.
Definition after1 (h : held) (e : event) : held :=
  match e with
  | RdRet _ | RdTry _ true => mkheld (S (readers h)) (writer h)
  | WrRet t | WrTry t true => mkheld (readers h) (Some t)
  | RdUnlock _ => mkheld (pred (readers h)) (writer h)
  | WrUnlock t => mkheld (readers h) (match writer h with Some u => if Nat.eqb u t then None else Some u | None => None end)
  | _ => h
  end.
Definition after (h : held) (tr : list event) : held := fold_left after1 tr h.
(* A read lock is only granted when no writer holds the lock, a write lock only when nobody does. *)
Definition ok1 (h : held) (e : event) : Prop :=
  match e with
  | RdRet _ | RdTry _ true => writer h = None
  | WrRet _ | WrTry _ true => h = nobody
  | _ => True
  end.
Fixpoint exclusive (h : held) (tr : list event) : Prop :=
  match tr with [] => True | e :: tr => ok1 h e /\ exclusive (after1 h e) tr end.
