(* Model of lib/thread/rwlock.myr, the readers-writer lock of systems without futexes, built on the spinning mutex:
   mtxlock is "retry until the flag is clear, then set it", mtxtrylock one attempt, mtxunlock clears the flag
   (lib/thread/mutex.myr).  _rcount is 32 bits wide.  Clients only unlock what they hold. *)
From Verif Require Import Base Conc Rw_Spec.
Open Scope Z_scope.

Definition W32 : Z := 2 ^ 32.
Record rw := mkrw { lock : bool; rlock : bool; rcount : Z }.      (* :10-14 *)
Definition mkrwlock : rw := mkrw false false 0.                   (* :25-27 *)
Inductive phase :=
| Rest
| RLk (try : bool)               (* mtxlock(&rw._rlock), rdlock :30, tryrdlock :50 *)
| RInc (try : bool)              (* rw._rcount++ == 0, rdlock :38, tryrdlock :51 *)
| RLock                          (* mtxlock(&rw._lock), rdlock :39 *)
| RTry                           (* mtxtrylock(&rw._lock), tryrdlock :52 *)
| RDec                           (* rw._rcount--, tryrdlock :53 *)
| RUn (try ok : bool)            (* mtxunlock(&rw._rlock), rdlock :41, tryrdlock :57 *)
| WLk                            (* mtxlock(&rw._lock), wrlock :45 *)
| WTry                           (* mtxtrylock(&rw._lock), trywrlock :62 *)
| ULk                            (* mtxlock(&rw._rlock), rdunlock :66 *)
| UDec                           (* --rw._rcount == 0, rdunlock :69 *)
| UUn                            (* mtxunlock(&rw._lock), rdunlock :70 *)
| UUn2                           (* mtxunlock(&rw._rlock), rdunlock :72 *)
| WUn.                           (* mtxunlock(&rw._lock), wrunlock :77 *)
Record th := mkth { rd : nat; wr : bool; ph : phase }.
Definition go (p : th) (f : phase) : th := mkth (rd p) (wr p) f.
Definition calls (t : nat) (p : th) (s : rw) : list (th * list event) :=
  match ph p with
  | Rest => [(go p (RLk false), []); (go p (RLk true), []); (go p WLk, []); (go p WTry, [])]
            ++ match rd p with O => [] | S r => [(mkth r (wr p) ULk, [RdUnlock t])] end
            ++ (if wr p then [(mkth (rd p) false WUn, [WrUnlock t])] else [])
  | _ => []
  end.
Definition act (t : nat) (p : th) (s : rw) : option (th * rw * eff * list event) :=
  match ph p with
  | Rest => None
  | RLk try => if rlock s then Some (p, s, NoEff, []) else Some (go p (RInc try), mkrw (lock s) true (rcount s), NoEff, [])
  | RInc try => Some (go p (if rcount s =? 0 then (if try then RTry else RLock) else RUn try true),
                      mkrw (lock s) (rlock s) ((rcount s + 1) mod W32), NoEff, [])
  | RLock => if lock s then Some (p, s, NoEff, []) else Some (go p (RUn false true), mkrw true (rlock s) (rcount s), NoEff, [])
  | RTry => if lock s then Some (go p RDec, s, NoEff, []) else Some (go p (RUn true true), mkrw true (rlock s) (rcount s), NoEff, [])
  | RDec => Some (go p (RUn true false), mkrw (lock s) (rlock s) ((rcount s - 1) mod W32), NoEff, [])
  | RUn try ok => Some (mkth (if ok then S (rd p) else rd p) (wr p) Rest, mkrw (lock s) false (rcount s), NoEff,
                        [if try then RdTry t ok else RdRet t])
  | WLk => if lock s then Some (p, s, NoEff, []) else Some (mkth (rd p) true Rest, mkrw true (rlock s) (rcount s), NoEff, [WrRet t])
  | WTry => if lock s then Some (go p Rest, s, NoEff, [WrTry t false]) else Some (mkth (rd p) true Rest, mkrw true (rlock s) (rcount s), NoEff, [WrTry t true])
  | ULk => if rlock s then Some (p, s, NoEff, []) else Some (go p UDec, mkrw (lock s) true (rcount s), NoEff, [])
  | UDec => let c := (rcount s - 1) mod W32 in Some (go p (if c =? 0 then UUn else UUn2), mkrw (lock s) (rlock s) c, NoEff, [])
  | UUn => Some (go p UUn2, mkrw false (rlock s) (rcount s), NoEff, [])
  | UUn2 => Some (go p Rest, mkrw (lock s) false (rcount s), NoEff, [])
  | WUn => Some (go p Rest, mkrw false (rlock s) (rcount s), NoEff, [])
  end.
Definition srw : sys th rw event := mksys calls act (fun _ => None) (fun p => p).
Definition start (n : nat) : rw * list th := (mkrwlock, repeat (mkth 0 false Rest) n).
