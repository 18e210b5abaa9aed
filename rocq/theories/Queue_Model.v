(* Model of lib/thread/queue.myr: qinit, qput, qget, with the condition variable of lib/thread/condvar+linux.myr.
   Each access to the queue's memory, to a node or to the condition's counter is one atomic step.
   The mutex is a lock that is taken in one step when free (its exclusion and wake-ups: C39, C40).
   The heap maps addresses to nodes; allocation returns any free address of `adr`, so addresses are reused.
   Touching a node that is not allocated sets `bad`, as does following the null pointer. *)
From Verif Require Import Base Conc Queue_Spec.
Open Scope Z_scope.

Definition W32 : Z := 2 ^ 32.
Record node (V : Type) := mknode { nv : V; next : option nat }.      (* type qnode, :13-16 *)
Arguments mknode {V}. Arguments nv {V}. Arguments next {V}.
(* type queue, :6-11, the condition's counter (condvar+linux.myr:10-13), the heap and a fault flag *)
Record queue (V : Type) := mkqueue { hd : option nat; tl : option nat; mtx : option nat; seq : Z; heap : nat -> option (node V); bad : bool }.
Arguments mkqueue {V}. Arguments hd {V}. Arguments tl {V}. Arguments mtx {V}. Arguments seq {V}. Arguments heap {V}. Arguments bad {V}.
Inductive pc (V : Type) :=
| Idle
| PMk (v : V) (a : nat)      (* qput: std.mk, :37; the allocator will return a, and does so once a is free *)
| PLock (a : nat)            (* qput: mtxlock, :38, holding the new node a *)
| PChk (a : nat)             (* qput: q.hd == Znode, :39 *)
| PHd (a : nat)              (* qput: q.hd = n, :40 *)
| PNext (a : nat)            (* qput: q.tl.next = n, :43 *)
| PTl (a : nat)              (* qput: q.tl = n, :41, :44 *)
| PSig                       (* condsignal: xadd(&cond._seq, 1), condvar+linux.myr:42 *)
| PWake                      (* condsignal: ftxwake(&cond._seq), condvar+linux.myr:43 *)
| PUnl                       (* qput: mtxunlock, :47 *)
| GLock                      (* qget: mtxlock, :53 *)
| GChk                       (* qget: q.hd == Znode, :55 *)
| CSeq                       (* condwait: seq = xget(&cond._seq), condvar+linux.myr:28 *)
| CUnl (c : Z)               (* condwait: mtxunlock, :30 *)
| CWait (c : Z)              (* condwait: ftxwait(&cond._seq, seq, -1), :31: the kernel's comparison *)
| CSleep                     (* in the kernel *)
| CLock                      (* condwait: mtxcontended, :39 *)
| GTake                      (* qget: n = q.hd, :59 *)
| GNext (n : nat)            (* qget: q.hd = q.hd.next, :60 *)
| GUnl (n : nat)             (* qget: mtxunlock, :62 *)
| GRead (n : nat)            (* qget: v = n.v, :63 *)
| GFree (n : nat) (v : V).   (* qget: std.free(n), :64 *)
Arguments Idle {V}. Arguments PMk {V}. Arguments PLock {V}. Arguments PChk {V}. Arguments PHd {V}. Arguments PNext {V}. Arguments PTl {V}. Arguments PSig {V}.
Arguments PWake {V}. Arguments PUnl {V}. Arguments GLock {V}. Arguments GChk {V}. Arguments CSeq {V}. Arguments CUnl {V}. Arguments CWait {V}.
Arguments CSleep {V}. Arguments CLock {V}. Arguments GTake {V}. Arguments GNext {V}. Arguments GUnl {V}. Arguments GRead {V}. Arguments GFree {V}.
Definition qinit {V} : queue V := mkqueue None None None 0 (fun _ => None) false.      (* :26-31 *)

Section Queue.
Context {V : Type}.
Definition set_hd (s : queue V) x := mkqueue x (tl s) (mtx s) (seq s) (heap s) (bad s).
Definition set_tl (s : queue V) x := mkqueue (hd s) x (mtx s) (seq s) (heap s) (bad s).
Definition set_mtx (s : queue V) x := mkqueue (hd s) (tl s) x (seq s) (heap s) (bad s).
Definition set_seq (s : queue V) x := mkqueue (hd s) (tl s) (mtx s) x (heap s) (bad s).
Definition store (s : queue V) a n := mkqueue (hd s) (tl s) (mtx s) (seq s) (fset (heap s) a n) (bad s).
Definition fault (s : queue V) := mkqueue (hd s) (tl s) (mtx s) (seq s) (heap s) true.
Definition alloc (s : queue V) (a : nat) (v : V) : queue V := store s a (Some (mknode v None)).

Definition calls (dom : list V) (adr : list nat) (t : nat) (p : pc V) (s : queue V) : list (pc V * list (obs V)) :=
  match p with
  | Idle => (GLock, [GetCall t]) :: flat_map (fun v => map (fun a => (PMk v a, [PutCall t v])) adr) dom
  | _ => []
  end.
Definition lockor (t : nat) (s : queue V) (p p' : pc V) : option (pc V * queue V * eff * list (obs V)) :=
  match mtx s with Some _ => Some (p, s, NoEff, []) | None => Some (p', set_mtx s (Some t), NoEff, []) end.
Definition act (t : nat) (p : pc V) (s : queue V) : option (pc V * queue V * eff * list (obs V)) :=
  match p with
  | PMk v a => match heap s a with None => Some (PLock a, alloc s a v, NoEff, []) | Some _ => None end
  | Idle => None
  | PLock a => lockor t s p (PChk a)
  | PChk a => Some ((match hd s with None => PHd a | Some _ => PNext a end), s, NoEff, [])
  | PHd a => Some (PTl a, set_hd s (Some a), NoEff, [])
  | PNext a => Some (PTl a, match tl s with
                                   | Some b => match heap s b with Some n => store s b (Some (mknode (nv n) (Some a))) | None => fault s end
                                   | None => fault s end, NoEff, [])
  | PTl a => Some (PSig, set_tl s (Some a), NoEff, [])
  | PSig => Some (PWake, set_seq s ((seq s + 1) mod W32), NoEff, [])
  | PWake => Some (PUnl, s, Wake1 0, [])
  | PUnl => Some (Idle, set_mtx s None, NoEff, [PutRet t])
  | GLock => lockor t s p GChk
  | GChk => Some ((match hd s with None => CSeq | Some _ => GTake end), s, NoEff, [])
  | CSeq => Some (CUnl (seq s), s, NoEff, [])
  | CUnl c => Some (CWait c, set_mtx s None, NoEff, [])
  | CWait c => Some ((if seq s =? c then CSleep else CLock), s, NoEff, [])
  | CSleep => None
  | CLock => lockor t s p GChk
  | GTake => Some (match hd s with Some n => (GNext n, s, NoEff, []) | None => (p, fault s, NoEff, []) end)
  | GNext n => Some (GUnl n, match hd s with
                                    | Some m => match heap s m with Some x => set_hd s (next x) | None => fault s end
                                    | None => fault s end, NoEff, [])
  | GUnl n => Some (GRead n, set_mtx s None, NoEff, [])
  | GRead n => Some (match heap s n with Some x => (GFree n (nv x), s, NoEff, []) | None => (p, fault s, NoEff, []) end)
  | GFree n v => Some (Idle, match heap s n with Some _ => store s n None | None => fault s end, NoEff, [GetRet t v])
  end.
Definition queues (dom : list V) (adr : list nat) : sys (pc V) (queue V) (obs V) :=
  mksys (calls dom adr) act (fun p => match p with CSleep => Some 0%nat | _ => None end) (fun p => match p with CSleep => CLock | _ => p end).
Definition start (n : nat) : queue V * list (pc V) := (qinit, repeat Idle n).
End Queue.
