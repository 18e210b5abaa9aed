(* Model of lib/thread/rwlock+futex.myr: mkrwlock, rdlock, wrlock, tryrdlock, trywrlock, rdunlock, wrunlock.
   Each access to _state or _owner is one atomic step.  A thread may hold any number of read locks, and `rd`/`wr` count
   what its caller holds; clients only call rdunlock when they hold a read lock (the code cannot check that), while
   wrunlock may be called by anyone (the code checks _owner).
   ftxwait is called with timeout 0 (:50, :91).  On Linux that returns at once (futex+linux.myr:31-49); on OS X a timeout
   of 0 is passed to ulock_wait, where it means none (futex+osx.myr:24-45, and :25-28 use 0 for "no timeout").
   `timed` says which: if true a thread that fell asleep may always return by itself. *)
From Verif Require Import Base Conc Rw_Spec.
Open Scope Z_scope.

Definition Nrmask : Z := 2147483647.    (* :30 *)
Definition Waitbit : Z := 2147483648.   (* :31 *)
Record rw := mkrw { word : Z; owner : option nat; dead : bool }.   (* type rwlock, :16-19 *)
Definition mkrwlock : rw := mkrw 0 None false.                     (* :33-35 *)
Inductive phase :=
| Rest
| RGet (try : bool)              (* rdlock :39, tryrdlock :98 *)
| RInc (try : bool) (s : Z)      (* rdlock :58, tryrdlock :103 *)
| RSet (s : Z)                   (* rdlock :49 *)
| RWait | RSleep                 (* rdlock :50 *)
| WOwn                           (* wrlock :67 *)
| WCas                           (* wrlock :79 *)
| WSet (s : Z)                   (* wrlock :90 *)
| WWait (v : Z) | WSleep         (* wrlock :91 *)
| WTry                           (* trywrlock :112 *)
| WGot (try : bool)              (* wrlock :81, trywrlock :113 *)
| RSub                           (* rdunlock :124 *)
| RChk (prev : Z)                (* rdunlock :125-126 *)
| RClr                           (* rdunlock :133 *)
| RWake                          (* rdunlock :134 *)
| WUChk (held : bool)            (* wrunlock :140 *)
| WUClr                          (* wrunlock :146 *)
| WUXchg                         (* wrunlock :155 *)
| WUWake.                        (* wrunlock :156 *)
Record th := mkth { rd : nat; wr : bool; ph : phase }.
Definition owned_by (s : rw) (t : nat) : bool := match owner s with Some u => Nat.eqb u t | None => false end.

Definition calls (t : nat) (p : th) (s : rw) : list (th * list event) :=
  if dead s then [] else
  match ph p with
  | Rest => [(mkth (rd p) (wr p) (RGet false), []); (mkth (rd p) (wr p) (RGet true), []);
             (mkth (rd p) (wr p) WOwn, []); (mkth (rd p) (wr p) WTry, []);
             (mkth (rd p) false (WUChk (wr p)), [WrUnlock t])]
            ++ match rd p with O => [] | S r => [(mkth r (wr p) RSub, [RdUnlock t])] end
  | _ => []
  end.
Definition go (p : th) (f : phase) : th := mkth (rd p) (wr p) f.
Definition setw (s : rw) (w : Z) : rw := mkrw w (owner s) (dead s).
Definition die (s : rw) : rw := mkrw (word s) (owner s) true.
Definition act (timed : bool) (t : nat) (p : th) (s : rw) : option (th * rw * eff * list event) :=
  if dead s then None else
  match ph p with
  | Rest => None
  | RGet try =>
    let m := Z.land (word s) Nrmask in
    if m =? Nrmask - 1 then Some (p, die s, NoEff, [])
    else if m =? Nrmask then
      if try then Some (go p Rest, s, NoEff, [RdTry t false]) else Some (go p (RSet (word s)), s, NoEff, [])
    else Some (go p (RInc try (word s)), s, NoEff, [])
  | RInc try v =>
    if word s =? v then Some (mkth (S (rd p)) (wr p) Rest, setw s ((v + 1) mod 2 ^ 32), NoEff, [if try then RdTry t true else RdRet t])
    else Some (go p (RGet try), s, NoEff, [])
  | RSet v => if word s =? v then Some (go p RWait, setw s (Z.lor Nrmask Waitbit), NoEff, []) else Some (go p (RGet false), s, NoEff, [])
  | RWait => Some (go p (if word s =? Z.lor Nrmask Waitbit then RSleep else RGet false), s, NoEff, [])
  | RSleep => if timed then Some (go p (RGet false), s, NoEff, []) else None
  | WOwn => if owned_by s t then Some (p, die s, NoEff, []) else Some (go p WCas, s, NoEff, [])
  | WCas => if word s =? 0 then Some (go p (WGot false), setw s Nrmask, NoEff, []) else Some (go p (WSet (word s)), s, NoEff, [])
  | WSet v => if word s =? v then Some (go p (WWait (Z.lor v Waitbit)), setw s (Z.lor v Waitbit), NoEff, []) else Some (go p WOwn, s, NoEff, [])
  | WWait v => Some (go p (if word s =? v then WSleep else WOwn), s, NoEff, [])
  | WSleep => if timed then Some (go p WOwn, s, NoEff, []) else None
  | WTry => if word s =? 0 then Some (go p (WGot true), setw s Nrmask, NoEff, []) else Some (go p Rest, s, NoEff, [WrTry t false])
  | WGot try => Some (mkth (rd p) true Rest, mkrw (word s) (Some t) false, NoEff, [if try then WrTry t true else WrRet t])
  | RSub => Some (go p (RChk (word s)), setw s ((word s - 1) mod 2 ^ 32), NoEff, [])
  | RChk v =>
    if Z.land v Nrmask =? 0 then Some (p, die s, NoEff, [])
    else Some (go p (if (Z.land v Nrmask =? 1) && negb (Z.land v Waitbit =? 0) then RClr else Rest), s, NoEff, [])
  | RClr => if word s =? Waitbit then Some (go p RWake, setw s 0, NoEff, []) else Some (go p Rest, s, NoEff, [])
  | RWake => Some (go p Rest, s, Wake1 0, [])
  | WUChk h => if owned_by s t then Some (go p WUClr, s, NoEff, []) else Some (p, die s, NoEff, [])
  | WUClr => Some (go p WUXchg, mkrw (word s) None false, NoEff, [])
  | WUXchg => Some (go p (if Z.land (word s) Waitbit =? 0 then Rest else WUWake), setw s 0, NoEff, [])
  | WUWake => Some (go p Rest, s, WakeAll 0, [])
  end.
Definition frw (timed : bool) : sys th rw event :=
  mksys calls (act timed) (fun p => match ph p with RSleep | WSleep => Some 0%nat | _ => None end)
        (fun p => match ph p with RSleep => go p (RGet false) | WSleep => go p WOwn | _ => p end).
Definition start (n : nat) : rw * list th := (mkrwlock, repeat (mkth 0 false Rest) n).
