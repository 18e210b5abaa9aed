(* What a concurrent FIFO queue promises, in terms of calls and returns only. *)
From Verif Require Import Base.

Inductive obs (V : Type) := PutCall (t : nat) (v : V) | PutRet (t : nat) | GetCall (t : nat) | GetRet (t : nat) (v : V).
Arguments PutCall {V}. Arguments PutRet {V}. Arguments GetCall {V}. Arguments GetRet {V}.
(* a history annotated with the moments at which operations take effect *)
Inductive lev (V : Type) := Obs (o : obs V) | Put (t : nat) (v : V) | Take (t : nat) (v : V).
Arguments Obs {V}. Arguments Put {V}. Arguments Take {V}.
(* what a thread is doing *)
Inductive doing (V : Type) := Quiet | Putting (v : V) | Putdone | Getting | Got (v : V).
Arguments Quiet {V}. Arguments Putting {V}. Arguments Putdone {V}. Arguments Getting {V}. Arguments Got {V}.
Definition fset {A} (f : nat -> A) (t : nat) (x : A) : nat -> A := fun u => if u =? t then x else f u.

(* A legal annotated history: each operation takes effect once, between its call and its return; a put appends its
   argument to the queue; a get removes the first item and returns it. *)
Inductive lstep {V} : (nat -> doing V) * list V -> lev V -> (nat -> doing V) * list V -> Prop :=
| l_putcall f q t v : f t = Quiet -> lstep (f, q) (Obs (PutCall t v)) (fset f t (Putting v), q)
| l_put f q t v : f t = Putting v -> lstep (f, q) (Put t v) (fset f t Putdone, q ++ [v])
| l_putret f q t : f t = Putdone -> lstep (f, q) (Obs (PutRet t)) (fset f t Quiet, q)
| l_getcall f q t : f t = Quiet -> lstep (f, q) (Obs (GetCall t)) (fset f t Getting, q)
| l_take f q t v : f t = Getting -> lstep (f, v :: q) (Take t v) (fset f t (Got v), q)
| l_getret f q t v : f t = Got v -> lstep (f, q) (Obs (GetRet t v)) (fset f t Quiet, q).
Inductive lrun {V} : (nat -> doing V) * list V -> list (lev V) -> (nat -> doing V) * list V -> Prop :=
| lrun_nil c : lrun c [] c
| lrun_cons c e c1 h c2 : lstep c e c1 -> lrun c1 h c2 -> lrun c (e :: h) c2.
Fixpoint erase {V} (h : list (lev V)) : list (obs V) :=
  match h with [] => [] | Obs o :: h => o :: erase h | _ :: h => erase h end.
Fixpoint puts {V} (h : list (lev V)) : list V := match h with [] => [] | Put _ v :: h => v :: puts h | _ :: h => puts h end.
Fixpoint takes {V} (h : list (lev V)) : list V := match h with [] => [] | Take _ v :: h => v :: takes h | _ :: h => takes h end.
(* the calls and returns es can be explained by a FIFO queue that starts empty *)
Definition linearizable {V} (es : list (obs V)) : Prop := exists h f q, erase h = es /\ lrun (fun _ => Quiet, []) h (f, q).

(* In such a history the items taken are, in order, the items put, and the rest is what is still queued. *)
Lemma lrun_fifo {V} (c : (nat -> doing V) * list V) h c' : lrun c h c' -> snd c ++ puts h = takes h ++ snd c'.
Proof.
  intros R. induction R as [c|c e c1 h c2 H R IH]; [cbn; now rewrite app_nil_r|].
  destruct H; cbn [puts takes snd app] in *; rewrite <- ?app_assoc in *; cbn in *; try assumption. now rewrite IH.
Qed.
(* how many operations were called, and how many have returned *)
Definition is_putcall {V} (o : obs V) : bool := match o with PutCall _ _ => true | _ => false end.
Definition is_putret {V} (o : obs V) : bool := match o with PutRet _ => true | _ => false end.
Definition is_getcall {V} (o : obs V) : bool := match o with GetCall _ => true | _ => false end.
Definition is_getret {V} (o : obs V) : bool := match o with GetRet _ _ => true | _ => false end.
Definition number {V} (P : obs V -> bool) (es : list (obs V)) : Z := Z.of_nat (length (filter P es)).
