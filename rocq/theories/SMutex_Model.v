(* Model of lib/thread/mutex.myr, the mutex of systems without futexes: mkmtx, mtxlock, mtxtrylock, mtxunlock.
   The four retry loops of mtxlock (:22-55) only differ in how long they sleep between attempts; here they are one loop.
   `held` in a thread's place says whether its caller holds the mutex. *)
From Verif Require Import Base Conc Mutex_Spec.
Open Scope Z_scope.

Inductive pc := Rest (held : bool)          (* outside the library *)
| LockCas (held : bool)                     (* mtxlock: xcas(&mtx._state, 0, 1), :24 :32 :40 :49 *)
| TryCas (held : bool)                      (* mtxtrylock :56-58 *)
| Unlk.                                     (* mtxunlock :61-63 *)
(* `strict` clients only unlock a mutex they hold; this implementation does not check. *)
Definition calls (strict : bool) (t : nat) (p : pc) (s : Z) : list (pc * list event) :=
  match p with
  | Rest h => [(LockCas h, []); (TryCas h, [])] ++ (if h || negb strict then [(Unlk, [UnlockCall t])] else [])
  | _ => []
  end.
Definition act (t : nat) (p : pc) (s : Z) : option (pc * Z * eff * list event) :=
  match p with
  | Rest _ => None
  | LockCas h => if s =? 0 then Some (Rest true, 1, NoEff, [LockRet t]) else Some (LockCas h, s, NoEff, [])
  | TryCas h => if s =? 0 then Some (Rest true, 1, NoEff, [TryRet t true]) else Some (Rest h, s, NoEff, [TryRet t false])
  | Unlk => Some (Rest false, 0, NoEff, [])
  end.
Definition smutex (strict : bool) : sys pc Z event := mksys (calls strict) act (fun _ => None) (fun p => p).
Definition start (n : nat) : Z * list pc := (0, repeat (Rest false) n).   (* mkmtx :15-17 *)
