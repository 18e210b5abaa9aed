(* Models of lib/thread/waitgrp+futex.myr and lib/thread/waitgrp.myr.  Each access to _val is one atomic step. *)
From Verif Require Import Base Conc Wg_Spec.
Open Scope Z_scope.

Definition W32 : Z := 2 ^ 32.
Record wg := mkwg_ { val : Z; dead : bool }.        (* type waitgrp, waitgrp+futex.myr:7-9 *)
Definition mkwg (v : Z) : wg := mkwg_ v false.      (* :16-18 *)
Inductive pc :=
| Idle
| WLoad                      (* wgwait: v = xget(&w._val), :23 *)
| WWait (v : Z)              (* wgwait: ftxwait(&w._val, v, -1), :24: the kernel's comparison *)
| Asleep
| PAdd                       (* wgpost: xadd(&w._val, -1), :29 *)
| PChk (v : Z)               (* wgpost :31-35 *)
| PWakeAll.                  (* wgpost: ftxwakeall(&w._val), :32 *)
Definition calls (t : nat) (p : pc) (s : wg) : list (pc * list event) :=
  if dead s then [] else match p with Idle => [(WLoad, []); (PAdd, [PostCall t])] | _ => [] end.
Definition act (t : nat) (p : pc) (s : wg) : option (pc * wg * eff * list event) :=
  if dead s then None else
  match p with
  | Idle | Asleep => None
  | WLoad => if val s =? 0 then Some (Idle, s, NoEff, [WgRet t]) else Some (WWait (val s), s, NoEff, [])
  | WWait v => Some (if val s =? v then Asleep else WLoad, s, NoEff, [])
  | PAdd => Some (PChk (val s), mkwg_ ((val s - 1) mod W32) false, NoEff, [])
  | PChk v => if v =? 1 then Some (PWakeAll, s, NoEff, [])
              else if v >? 0 then Some (Idle, s, NoEff, []) else Some (PChk v, mkwg_ (val s) true, NoEff, [])
  | PWakeAll => Some (Idle, s, WakeAll 0, [])
  end.
Definition fwg : sys pc wg event :=
  mksys calls act (fun p => match p with Asleep => Some 0%nat | _ => None end) (fun p => match p with Asleep => WLoad | _ => p end).
Definition start (n : nat) (v : Z) : wg * list pc := (mkwg v, repeat Idle n).
(* lib/thread/waitgrp.myr: no futexes; the four polling loops of wgwait (:22-46) are one loop here *)
Definition sact (t : nat) (p : pc) (s : wg) : option (pc * wg * eff * list event) :=
  if dead s then None else
  match p with
  | WLoad => if val s =? 0 then Some (Idle, s, NoEff, [WgRet t]) else Some (WLoad, s, NoEff, [])
  | PAdd => Some (PChk (val s), mkwg_ ((val s - 1) mod W32) false, NoEff, [])                 (* wgpost :48-50 *)
  | PChk v => if v >? 0 then Some (Idle, s, NoEff, []) else Some (PChk v, mkwg_ (val s) true, NoEff, [])
  | _ => None
  end.
Definition swg : sys pc wg event := mksys calls sact (fun _ => None) (fun p => p).
