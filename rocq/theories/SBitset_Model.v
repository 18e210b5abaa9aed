(* Model of lib/std/bitset.myr.  A bitset# is the list of its chunks bs.bits.
   size is a signed 64-bit integer; chunks are kept as the unsigned image (same bits), which no
   operation here distinguishes (only |, &, ~ and comparison with 0 or each other are used).
   Elements are non-negative (a negative v makes a negative index, which aborts).
   Simplification: allocation never fails and lengths do not overflow. *)
From Verif Require Import Base.
Open Scope N_scope.

Definition bits := list N.
Definition blen (b : bits) : N := N.of_nat (length b).
Definition get (b : bits) (i : N) : N := nth (N.to_nat i) b 0.

(* mkbs, lib/std/bitset.myr:46-48 *)
Definition mkbs : bits := [].
(* bsdup, :50-52; bsclear, :59-62 *)
Definition bsdup (b : bits) : bits := b.
Definition bsclear (b : bits) : bits := map (fun _ => 0) b.
(* bsmax, :64-66 *)
Definition bsmax (b : bits) : N := blen b * 8 * 8.

(* ensurelen, :174-178; slzgrow (lib/std/alloc.myr) extends with zeros *)
Definition ensurelen (b : bits) (len : nat) : bits :=
  if (length b <=? len)%nat then b ++ repeat 0 (len + 1 - length b) else b.
(* eqsz, :180-186 *)
Definition eqsz (a b : bits) : bits * bits :=
  let sz := Nat.max (length a) (length b) in (ensurelen a sz, ensurelen b sz).

(* bsput, :78-88: new set and "changed" *)
Definition bsput (b : bits) (v : N) : bits * bool :=
  let idx := v / (8 * 8) in let off := v mod (8 * 8) in
  let b := ensurelen b (N.to_nat idx) in
  (upd b (N.to_nat idx) (N.lor (get b idx) (N.shiftl 1 off)), N.land (get b idx) (N.shiftl 1 off) =? 0).

(* bsdel, :90-101 *)
Definition bsdel (b : bits) (v : N) : bits * bool :=
  let idx := v / (8 * 8) in let off := v mod (8 * 8) in
  if idx <? blen b
  then (upd b (N.to_nat idx) (N.land (get b idx) (N.lnot (N.shiftl 1 off) 64)),
        negb (N.land (get b idx) (N.shiftl 1 off) =? 0))
  else (b, false).

(* bshas, :103-113 *)
Definition bshas (b : bits) (v : N) : bool :=
  let idx := v / (8 * 8) in let off := v mod (8 * 8) in
  if blen b <=? idx then false else negb (N.land (get b idx) (N.shiftl 1 off) =? 0).

(* for i = 0; i < n: a[i] = f a[i] b[i] *)
Fixpoint zipn (f : N -> N -> N) (n : nat) (a b : bits) : bits :=
  match n, a, b with
  | S n, x :: a, y :: b => f x y :: zipn f n a b
  | _, _, _ => a
  end.

(* bsunion, :115-120; returns both operands *)
Definition bsunion (a b : bits) : bits * bits :=
  let '(a, b) := eqsz a b in (zipn N.lor (length b) a b, b).
(* bsintersect, :122-129 *)
Definition bsintersect (a b : bits) : bits * bits :=
  (zipn N.land (Nat.min (length a) (length b)) a b, b).
(* bsdiff, :131-138 *)
Definition bsdiff (a b : bits) : bits * bits :=
  (zipn (fun x y => N.land x (N.lnot y 64)) (Nat.min (length b) (length a)) a b, b).

(* bsissubset, :140-148 *)
Definition bsissubset (a b : bits) : bool :=
  let '(a, b) := eqsz a b in
  forallb (fun i => N.land (nth i b 0) (nth i a 0) =? nth i b 0) (seq 0 (length a)).

(* eq, :150-160 *)
Definition bseq (a b : bits) : bool :=
  let '(a, b) := eqsz a b in
  forallb (fun i => nth i a 0 =? nth i b 0) (seq 0 (length a)).

(* hash, :162-172: the slice that is hashed *)
Fixpoint hash_end (b : bits) (e : nat) : nat :=
  match e with
  | O => O
  | S e' => if nth e' b 0 =? 0 then hash_end b e' else e
  end.
Definition hashed (b : bits) : list N := firstn (hash_end b (length b)) b.

(* __iternext__, :193-209.  The while loop :198-200 and the for loop :196-206.
   None: fuel exhausted *)
Fixpoint skip_zero (fuel : nat) (b : bits) (n i : N) : option N :=
  match fuel with
  | O => None
  | S f => if (i <? n) && (get b (i / (8 * 8)) =? 0)
           then skip_zero f b n (N.land (i + 8 * 8) (N.lnot (8 * 8 - 1) 64))
           else Some i
  end.
Fixpoint iter_for (fuel : nat) (b : bits) (n i : N) : option (option N * N) :=
  match fuel with
  | O => None
  | S f => if i <? n then
             match skip_zero fuel b n i with
             | None => None
             | Some i => if bshas b i then Some (Some i, i + 1) else iter_for f b n (i + 1)
             end
           else Some (None, n)
  end.
Definition iternext (fuel : nat) (b : bits) (idx : N) : option (option N * N) :=
  iter_for fuel b (bsmax b) idx.
(* for v : bybsvalue(bs) ... : the values produced *)
Fixpoint drain (fuel : nat) (b : bits) (idx : N) : option (list N) :=
  match fuel with
  | O => None
  | S f => match iternext (S (N.to_nat (bsmax b))) b idx with
           | None => None
           | Some (None, _) => Some []
           | Some (Some v, idx) => option_map (cons v) (drain f b idx)
           end
  end.
(* bscount, :68-76 *)
Definition bscount (b : bits) : option N :=
  option_map (fun l => N.of_nat (length l)) (drain (S (N.to_nat (bsmax b))) b 0).

(* programs over several sets *)
Inductive op :=
| OPut (r : nat) (e : N) | ODel (r : nat) (e : N)
| OUnion (r s : nat) | OInter (r s : nat) | ODiff (r s : nat)
| OClear (r : nat) | ODup (r s : nat)
| OEq (r s : nat) | OSub (r s : nat).   (* comparisons grow their operands *)
Definition store := nat -> bits.
Definition sset (m : store) (r : nat) (b : bits) : store := fun x => if Nat.eqb x r then b else m x.
Definition bin (f : bits -> bits -> bits * bits) (m : store) (r s : nat) : store :=
  let '(a, b) := f (m r) (m s) in sset (sset m s b) r a.
Definition step (m : store) (o : op) : store :=
  match o with
  | OPut r e => sset m r (fst (bsput (m r) e))
  | ODel r e => sset m r (fst (bsdel (m r) e))
  | OUnion r s => bin bsunion m r s
  | OInter r s => bin bsintersect m r s
  | ODiff r s => bin bsdiff m r s
  | OClear r => sset m r (bsclear (m r))
  | ODup r s => sset m r (bsdup (m s))
  | OEq r s | OSub r s => bin eqsz m r s
  end.
Definition run (os : list op) : store := fold_left step os (fun _ => mkbs).
