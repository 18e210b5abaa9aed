(* Models of lib/thread/sem+futex.myr and lib/thread/sem.myr.  Each access to the semaphore's memory is one atomic step.
   _val and _nwaiters are 32 bits each and adjacent; sempost's 64-bit addition (:63) may carry from one into the other. *)
From Verif Require Import Base Conc Sem_Spec.
Open Scope Z_scope.

Definition W32 : Z := 2 ^ 32.
Record sem := mksem_ { val : Z; nw : Z; dead : bool }.   (* type sem, sem+futex.myr:11-14 *)
Definition mksem (v : Z) : sem := mksem_ v 0 false.      (* :22-24 *)

Inductive pc :=
| Idle
| WInc                       (* semwait: xadd(&s._nwaiters, 1), :29 *)
| WLoad                      (* semwait: v = s._val, :31 *)
| WCas (v : Z)               (* semwait: xcas(&s._val, v, v - 1), :32 *)
| WWait                      (* semwait: ftxwait(&s._val, 0, -1), :37: the kernel's comparison *)
| Asleep                     (* in the kernel *)
| WDec                       (* semwait: xadd(&s._nwaiters, -1), :33 *)
| TLoad                      (* semtrywait :43 *)
| TCas (v : Z)               (* semtrywait :47 *)
| PAdd                       (* sempost: xadd((s : uint64#), 1), :60 *)
| PChk (v n : Z)             (* sempost :61-63, holding the old _val and _nwaiters *)
| PWake.                     (* sempost: ftxwake(&s._val), :68 *)

Definition calls (t : nat) (p : pc) (s : sem) : list (pc * list event) :=
  if dead s then [] else match p with Idle => [(WInc, []); (TLoad, []); (PAdd, [PostCall t])] | _ => [] end.
Definition act (t : nat) (p : pc) (s : sem) : option (pc * sem * eff * list event) :=
  if dead s then None else
  match p with
  | Idle | Asleep => None
  | WInc => Some (WLoad, mksem_ (val s) ((nw s + 1) mod W32) false, NoEff, [])
  | WLoad => Some (if val s >? 0 then WCas (val s) else WWait, s, NoEff, [])
  | WCas v => if val s =? v then Some (WDec, mksem_ (v - 1) (nw s) false, NoEff, []) else Some (WLoad, s, NoEff, [])
  | WWait => Some (if val s =? 0 then Asleep else WLoad, s, NoEff, [])
  | WDec => Some (Idle, mksem_ (val s) ((nw s - 1) mod W32) false, NoEff, [SemRet t])
  | TLoad => if val s =? 0 then Some (Idle, s, NoEff, [SemTry t false]) else Some (TCas (val s), s, NoEff, [])
  | TCas v => if val s =? v then Some (Idle, mksem_ (v - 1) (nw s) false, NoEff, [SemTry t true]) else Some (TLoad, s, NoEff, [])
  | PAdd => let w := (val s + W32 * nw s + 1) mod (W32 * W32) in
            Some (PChk (val s) (nw s), mksem_ (w mod W32) (w / W32) false, NoEff, [])
  | PChk v n => if v =? W32 - 1 then Some (PChk v n, mksem_ (val s) (nw s) true, NoEff, [])   (* assert fails: abort *)
                else Some (if n >? 0 then PWake else Idle, s, NoEff, [])
  | PWake => Some (Idle, s, Wake1 0, [])
  end.
Definition fsem : sys pc sem event :=
  mksys calls act (fun p => match p with Asleep => Some 0%nat | _ => None end) (fun p => match p with Asleep => WLoad | _ => p end).
Definition start (n : nat) (v : Z) : sem * list pc := (mksem v, repeat Idle n).

(* lib/thread/sem.myr: the same interface without futexes.  The four retry loops of semwait (:27-52) only differ in how
   long they sleep between attempts; here they are one loop.  Only the value matters, and nobody sleeps in a kernel. *)
Definition sact (t : nat) (p : pc) (s : sem) : option (pc * sem * eff * list event) :=
  if dead s then None else
  match p with
  | WInc => Some (WLoad, s, NoEff, [])                       (* no _nwaiters here *)
  | WLoad => Some (if negb (val s =? 0) then WCas (val s) else WLoad, s, NoEff, [])       (* :26 :32 :39 :46 *)
  | WCas v => if val s =? v then Some (Idle, mksem_ (v - 1) 0 false, NoEff, [SemRet t]) else Some (WLoad, s, NoEff, [])
  | TLoad => if val s =? 0 then Some (Idle, s, NoEff, [SemTry t false]) else Some (TCas (val s), s, NoEff, [])   (* :54-63 *)
  | TCas v => if val s =? v then Some (Idle, mksem_ (v - 1) 0 false, NoEff, [SemTry t true]) else Some (TLoad, s, NoEff, [])
  | PAdd => Some (PChk (val s) 0, mksem_ ((val s + 1) mod W32) 0 false, NoEff, [])        (* :66-68 *)
  | PChk v n => if v =? W32 - 1 then Some (PChk v n, mksem_ (val s) 0 true, NoEff, []) else Some (Idle, s, NoEff, [])
  | _ => None
  end.
Definition ssem : sys pc sem event := mksys calls sact (fun _ => None) (fun p => p).
