(* Model of lib/thread/mutex+futex.myr (the mutex used where futexes exist): mkmtx, mtxlock, mtxtrylock, mtxunlock,
   mtxcontended.  Each access to the mutex's memory is one atomic step (sequential consistency; the non-atomic accesses
   to _owner are single machine words).  Threads are numbers; tid() of thread t is t, and _owner = -1 is None.
   std.suicide sets `dead`: after it no thread takes a step. *)
From Verif Require Import Base Conc Mutex_Spec.
Open Scope Z_scope.

Definition Unlocked : Z := 0.   (* lib/thread/mutex+futex.myr:22-24 *)
Definition Locked : Z := 1.
Definition Contended : Z := 2.
Definition nspin : nat := 10.   (* :26 *)

(* type mutex, :9-12 *)
Record mutex := mkmutex { st : Z; owner : option nat; dead : bool }.
Definition mkmtx : mutex := mkmutex Unlocked None false.   (* :28-30 *)
Definition set_st (m : mutex) v := mkmutex v (owner m) (dead m).
Definition set_owner (m : mutex) v := mkmutex (st m) v (dead m).
Definition die (m : mutex) := mkmutex (st m) (owner m) true.
Definition owned_by (m : mutex) (t : nat) : bool := match owner m with Some u => Nat.eqb u t | None => false end.

(* Where a thread is.  `held` records whether the caller already held the mutex when it called (misuse is allowed). *)
Inductive pc :=
| Idle | Held                        (* outside the library, not holding / holding the mutex *)
| LockChk (held : bool)              (* mtxlock :35 *)
| Spin (k : nat) (c : Z)             (* mtxlock :46-52, k iterations left *)
| SetOwn                             (* mtxlock :49 or :67 *)
| Xchg                               (* mtxlock :60 or :65; mtxcontended :113 *)
| Loop (c : Z)                       (* mtxlock :63, mtxcontended :113: test of c *)
| Wait                               (* ftxwait(&mtx._state, Contended, -1), :64, :114: the kernel's comparison *)
| Asleep                             (* in the kernel *)
| TryCas (held : bool)               (* mtxtrylock :71 *)
| TrySet                             (* mtxtrylock :72 *)
| UnlkChk (held : bool)              (* mtxunlock :84 *)
| UnlkClr                            (* mtxunlock :90 *)
| UnlkXchg                           (* mtxunlock :100 *)
| UnlkWake                           (* mtxunlock :101 *)
| CtdChk (held : bool).              (* mtxcontended :106 *)

Definition calls (t : nat) (p : pc) (m : mutex) : list (pc * list event) :=
  if dead m then [] else
  match p with
  | Idle => [(LockChk false, []); (CtdChk false, []); (TryCas false, []); (UnlkChk false, [UnlockCall t])]
  | Held => [(LockChk true, []); (CtdChk true, []); (TryCas true, []); (UnlkChk true, [UnlockCall t])]
  | _ => []
  end.
Definition act (t : nat) (p : pc) (m : mutex) : option (pc * mutex * eff * list event) :=
  if dead m then None
  else match p with
  | Idle | Held | Asleep => None
  | LockChk h => if owned_by m t then Some (LockChk h, die m, NoEff, []) else Some (Spin nspin Locked, m, NoEff, [])
  | Spin (S k) _ => if st m =? Unlocked then Some (SetOwn, set_st m Locked, NoEff, []) else Some (Spin k (st m), m, NoEff, [])
  | Spin O c => Some (if c =? Locked then Xchg else Loop c, m, NoEff, [])
  | SetOwn => Some (Held, set_owner m (Some t), NoEff, [LockRet t])
  | Xchg => Some (Loop (st m), set_st m Contended, NoEff, [])
  | Loop c => Some (if c =? Unlocked then SetOwn else Wait, m, NoEff, [])
  | Wait => Some (if st m =? Contended then Asleep else Xchg, m, NoEff, [])
  | TryCas h => if st m =? Unlocked then Some (TrySet, set_st m Locked, NoEff, [])
                else Some (if h then Held else Idle, m, NoEff, [TryRet t false])
  | TrySet => Some (Held, set_owner m (Some t), NoEff, [TryRet t true])
  | UnlkChk h => if owned_by m t then Some (UnlkClr, m, NoEff, []) else Some (UnlkChk h, die m, NoEff, [])
  | UnlkClr => Some (UnlkXchg, set_owner m None, NoEff, [])
  | UnlkXchg => Some (if st m =? Contended then UnlkWake else Idle, set_st m Unlocked, NoEff, [])
  | UnlkWake => Some (Idle, m, Wake1 0, [])
  | CtdChk h => if owned_by m t then Some (CtdChk h, die m, NoEff, []) else Some (Xchg, m, NoEff, [])
  end.
Definition fmutex : sys pc mutex event :=
  mksys calls act (fun p => match p with Asleep => Some 0%nat | _ => None end) (fun p => match p with Asleep => Xchg | _ => p end).
(* n threads and a fresh mutex *)
Definition start (n : nat) : mutex * list pc := (mkmtx, repeat Idle n).
