(* What callers of a mutex see, and mutual exclusion stated on it. *)
From Verif Require Import Base.

Inductive event :=
| LockRet (t : nat)                  (* mtxlock (or mtxcontended) returned to thread t *)
| TryRet (t : nat) (ok : bool)       (* mtxtrylock returned ok to thread t *)
| UnlockCall (t : nat).              (* thread t called mtxunlock *)

(* A thread holds the mutex from the return of a successful mtxlock/mtxtrylock until it calls mtxunlock. *)
Definition holder (h : option nat) (e : event) : option nat :=
  match e with
  | LockRet t | TryRet t true => Some t
  | TryRet t false => h
  | UnlockCall t => match h with Some u => if u =? t then None else h | None => None end
  end.
(* The mutex is only ever given to a thread when nobody holds it. *)
Fixpoint exclusive (h : option nat) (tr : list event) : Prop :=
  match tr with
  | [] => True
  | e :: tr => match e with LockRet _ | TryRet _ true => h = None | _ => True end /\ exclusive (holder h e) tr
  end.
