(* Model of lib/std/sort.myr and lib/std/search.myr.  size is a signed 64-bit integer; slices are
   shorter than 2^62 elements, so no index computation below wraps. *)
From Verif Require Import Base.

(* std.order, lib/std/cmp.myr: Before, Equal, After *)
Inductive order := Before | Equal | After.

(* ---------- lib/std/sort.myr ---------- *)
Section Sort.
Context {A : Type} (cmp : A -> A -> order) (d : A).
(* sl[i]; every use below is guarded by i < sl.len, so the default d is never read *)
Definition at_ (sl : list A) (i : nat) : A := nth i sl d.
(* tmp = sl[i]; sl[i] = sl[j]; sl[j] = tmp: lib/std/sort.myr:14-16, 52-54 *)
Definition swap (sl : list A) (i j : nat) : list A :=
  let tmp := at_ sl i in upd (upd sl i (at_ sl j)) j tmp.

Definition before (a b : A) : bool := match cmp a b with Before => true | _ => false end.

(* siftdown, lib/std/sort.myr:33-60, on the slice sl[:n]; None: fuel exhausted *)
Fixpoint siftdown (fuel : nat) (sl : list A) (n r : nat) : option (list A) :=
  match fuel with
  | O => None
  | S fuel =>
      if 2 * r + 1 <? n then
        let c := 2 * r + 1 in
        let s := r in
        let s := if before (at_ sl s) (at_ sl c) then c else s in
        let s := if c + 1 <? n then (if before (at_ sl s) (at_ sl (c + 1)) then c + 1 else s) else s in
        if s =? r then Some sl
        else siftdown fuel (swap sl r s) n s
      else Some sl
  end.

(* the loop of heapify, lib/std/sort.myr:27-30; k = start + 1 *)
Fixpoint heapify_loop (sl : list A) (k : nat) : option (list A) :=
  match k with
  | O => Some sl
  | S start => match siftdown (S (length sl)) sl (length sl) start with
               | Some sl => heapify_loop sl start
               | None => None
               end
  end.
(* heapify, lib/std/sort.myr:23-31; start = sl.len/2 - 1 is -1 for fewer than two elements *)
Definition heapify (sl : list A) : option (list A) := heapify_loop sl (Nat.div (length sl) 2).

(* the loop of sort, lib/std/sort.myr:13-19 *)
Fixpoint sort_loop (sl : list A) (end_ : nat) : option (list A) :=
  match end_ with
  | O => Some sl
  | S e => match siftdown (S (length sl)) (swap sl end_ 0) (e + 1) 0 with
           | Some sl => sort_loop sl e
           | None => None
           end
  end.
(* sort, lib/std/sort.myr:7-21; end = sl.len - 1 is -1 for the empty slice, where the loop does nothing *)
Definition sort (sl : list A) : option (list A) :=
  match heapify sl with
  | Some sl => sort_loop sl (length sl - 1)
  | None => None
  end.
End Sort.

(* ---------- lib/std/search.myr ---------- *)
Section Search.
Context {T K : Type} (cmp : T -> K -> order).

(* lsearch, lib/std/search.myr:11-21 *)
Fixpoint lsearch_from (sl : list T) (key : K) (i : Z) : option Z :=
  match sl with
  | [] => None
  | x :: sl => match cmp x key with Equal => Some i | _ => lsearch_from sl key (i + 1)%Z end
  end.
Definition lsearch (sl : list T) (key : K) : option Z := lsearch_from sl key 0%Z.

(* outcome of a search: an index, not found, an index outside the slice (abort), or fuel exhausted *)
Inductive result := Found (i : Z) | NotFound | OutOfBounds | OutOfFuel.

(* bsearch, lib/std/search.myr:24-39 *)
Open Scope Z_scope.
Fixpoint bsearch_loop (fuel : nat) (sl : list T) (key : K) (lo hi : Z) : result :=
  match fuel with
  | O => OutOfFuel
  | S fuel =>
      if lo <=? hi then
        let mid := Z.quot (hi + lo) 2 in
        if (mid <? 0) || (Z.of_nat (length sl) <=? mid) then OutOfBounds
        else match nth_error sl (Z.to_nat mid) with
             | None => OutOfBounds
             | Some x => match cmp x key with
                         | After => bsearch_loop fuel sl key lo (mid - 1)
                         | Before => bsearch_loop fuel sl key (mid + 1) hi
                         | Equal => Found mid
                         end
             end
      else NotFound
  end.
Definition bsearch (fuel : nat) (sl : list T) (key : K) : result :=
  bsearch_loop fuel sl key 0 (Z.of_nat (length sl) - 1).
End Search.
