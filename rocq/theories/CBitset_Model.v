(* Model of util/bitset.c and the inline bshas of util/util.h.
   A Bitset {nchunks; chunks} (util/util.h:31-34) is modelled by the list of its chunks:
   nchunks is the list's length, each chunk a 64-bit word kept in N.
   Simplifications: malloc never fails (the code dies on failure); nchunks*64 does not
   overflow size_t (would need 2^61 bytes of memory). *)
From Verif Require Import Base.
Open Scope N_scope.

Definition bitset := list N.
Definition nchunks (b : bitset) : N := N.of_nat (length b).
Definition chunk (b : bitset) (i : N) : N := nth (N.to_nat i) b 0.

(* zero-extension of the chunk array to sz words: util/bitset.c:32-39 and zrealloc, util/alloc.c:40-49 *)
Definition growto (b : bitset) (sz : nat) : bitset := b ++ repeat 0 (sz - length b).

(* eqsz, util/bitset.c:20-49; returns both (possibly grown) sets *)
Definition eqsz (a b : bitset) : bitset * bitset :=
  let sz := if (nchunks b <? nchunks a) then length a else length b in
  ((if Nat.eqb (length a) sz then a else growto a sz),
   (if Nat.eqb (length b) sz then b else growto b sz)).

(* mkbs, util/bitset.c:52-61 *)
Definition mkbs : bitset := [0].

(* bsdup, util/bitset.c:74-86 (non-NULL argument) *)
Definition bsdup (a : bitset) : bitset := a.

(* bsclear, util/bitset.c:89-99 (non-NULL argument) *)
Definition bsclear (b : bitset) : bitset := map (fun _ => 0) b.

(* bscount, util/bitset.c:102-113: the inner loop over j = 0..63 *)
Definition bscount (b : bitset) : N :=
  fold_left (fun n c =>
    fold_left (fun n j => if negb (N.land c (N.shiftl 1 (N.of_nat j)) =? 0) then n + 1 else n)
              (seq 0 64) n) b 0.

(* firstbit, util/bitset.c:115-142 *)
Definition firstbit_tab : list N := [4;0;1;0;2;0;1;0;3;0;1;0;2;0;1;0].
Definition firstbit (b : N) : N :=
  let n := 0 in
  let '(n, b) := if N.land b 0xffffffff =? 0 then (n + 32, N.shiftr b 32) else (n, b) in
  let '(n, b) := if N.land b 0xffff =? 0 then (n + 16, N.shiftr b 16) else (n, b) in
  let '(n, b) := if N.land b 0xff =? 0 then (n + 8, N.shiftr b 8) else (n, b) in
  let '(n, b) := if N.land b 0xf =? 0 then (n + 4, N.shiftr b 4) else (n, b) in
  n + nth (N.to_nat (N.land b 0xf)) firstbit_tab 0.

(* bsiter, util/bitset.c:161-180.  Some e = returns 1 with *elt = e; None = returns 0.
   iter_scan is the while loop: [rest] are the chunks after index t. *)
Fixpoint iter_scan (b t : N) (rest : list N) : option N :=
  if negb (b =? 0) then Some (64 * t + firstbit b)
  else match rest with
       | [] => None
       | c :: rest' => iter_scan c (t + 1) rest'
       end.
Definition bsiter (bs : bitset) (elt : N) : option N :=
  let t := elt / 64 in
  if nchunks bs <=? t then None
  else
    let b := N.land (chunk bs t) (N.lnot (N.shiftl 1 (elt mod 64) - 1) 64) in
    iter_scan b t (skipn (S (N.to_nat t)) bs).

(* the documented loop  for (i = 0; bsiter(set,&i); i++) use(i);  util/bitset.c:152-155.
   None = fuel exhausted *)
Fixpoint bsloop (fuel : nat) (bs : bitset) (i : N) : option (list N) :=
  match fuel with
  | O => None
  | S f => match bsiter bs i with
           | None => Some []
           | Some e => option_map (cons e) (bsloop f bs (e + 1))
           end
  end.

(* bsmax, util/bitset.c:186-187 *)
Definition bsmax (b : bitset) : N := nchunks b * 64.

(* bsput, util/bitset.c:189-199 *)
Definition bsput (b : bitset) (e : N) : bitset :=
  let b := if nchunks b * 64 <=? e then growto b (S (N.to_nat (e / 64))) else b in
  upd b (N.to_nat (e / 64)) (N.lor (chunk b (e / 64)) (N.shiftl 1 (e mod 64))).

(* bsdel, util/bitset.c:201-206 *)
Definition bsdel (b : bitset) (e : N) : bitset :=
  if e <? nchunks b * 64 then
    upd b (N.to_nat (e / 64)) (N.land (chunk b (e / 64)) (N.lnot (N.shiftl 1 (e mod 64)) 64))
  else b.

(* for (i = 0; i < a->nchunks; i++) a->chunks[i] = f(a->chunks[i], b->chunks[i]) *)
Fixpoint zip (f : N -> N -> N) (a b : list N) : list N :=
  match a, b with
  | x :: a', y :: b' => f x y :: zip f a' b'
  | _, _ => a
  end.

(* bsunion, util/bitset.c:208-216; bsintersect, :218-226; bsdiff, :237-245.
   Each returns (a, b) after the call. *)
Definition bsunion (a b : bitset) : bitset * bitset :=
  let '(a, b) := eqsz a b in (zip N.lor a b, b).
Definition bsintersect (a b : bitset) : bitset * bitset :=
  let '(a, b) := eqsz a b in (zip N.land a b, b).
Definition bsdiff (a b : bitset) : bitset * bitset :=
  let '(a, b) := eqsz a b in (zip (fun x y => N.land x (N.lnot y 64)) a b, b).

(* bsisempty, util/bitset.c:274-285 (non-NULL argument) *)
Definition bsisempty (b : bitset) : bool := forallb (fun c => c =? 0) b.

(* bseq, util/bitset.c:247-260; NULL is None *)
Definition bseq (a b : option bitset) : bool :=
  match a, b with
  | Some a, Some b =>
      let '(a, b) := eqsz a b in
      forallb (fun p => fst p =? snd p) (combine a b)
  | Some a, None => bsisempty a
  | None, Some b => bsisempty b
  | None, None => true
  end.

(* bsissubset(set, sub), util/bitset.c:262-272 *)
Definition bsissubset (set sub : bitset) : bool :=
  let '(set, sub) := eqsz set sub in
  forallb (fun p => N.land (snd p) (fst p) =? fst p) (combine set sub).

(* bshas, util/util.h:89-98 *)
Definition bshas (b : bitset) (e : N) : bool :=
  if nchunks b * 8 * 8 <=? e then false
  else negb (N.land (chunk b (e / 64)) (N.shiftl 1 (e mod 64)) =? 0).

(* A program using several bit sets, named by numbers.  Binary operations may name the same
   set twice (aliasing); the C loops then read and write the same word at each index, which the
   by-value functions above also describe, and the first operand's new value wins. *)
Inductive op :=
| OPut (r : nat) (e : N) | ODel (r : nat) (e : N)
| OUnion (r s : nat) | OInter (r s : nat) | ODiff (r s : nat)
| OClear (r : nat) | ODup (r s : nat) (* r = bsdup(s) *).

Definition store := nat -> bitset.
Definition sset (m : store) (r : nat) (b : bitset) : store := fun x => if Nat.eqb x r then b else m x.
Definition bin (f : bitset -> bitset -> bitset * bitset) (m : store) (r s : nat) : store :=
  let '(a, b) := f (m r) (m s) in sset (sset m s b) r a.
Definition step (m : store) (o : op) : store :=
  match o with
  | OPut r e => sset m r (bsput (m r) e)
  | ODel r e => sset m r (bsdel (m r) e)
  | OUnion r s => bin bsunion m r s
  | OInter r s => bin bsintersect m r s
  | ODiff r s => bin bsdiff m r s
  | OClear r => sset m r (bsclear (m r))
  | ODup r s => sset m r (bsdup (m s))
  end.
Definition run (os : list op) : store := fold_left step os (fun _ => mkbs).
