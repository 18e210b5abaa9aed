(* The open-addressing core shared by util/htab.c and lib/std/htab.myr.
   Both keep four parallel arrays keys/vals/hashes/dead (util/htab.c:28-31, lib/std/htab.myr:15-18);
   here they are one list of slots: None is hashes[i] == 0, Some (h,k,v,d) is a used slot
   with hash h, key k, value v and dead flag d.
   Simplification: h + di is not reduced mod 2^64; since the table size is a power of two not above 2^64
   the masked index is the same. *)
From Verif Require Import Base.
Open Scope N_scope.

Definition slot (K V : Type) := option (N * K * V * bool).
Definition tab (K V : Type) := list (slot K V).

(* what the arrays hold after a slot is written: hashes[i] == 0 marks an unused slot, so writing
   hash 0 leaves the slot unused *)
Definition mkslot {K V} (h : N) (k : K) (v : V) (d : bool) : slot K V :=
  if h =? 0 then None else Some (h, k, v, d).

Section OA.
Context {K V : Type}.
Variable hash : K -> N.
Variable cmp : K -> K -> bool.

(* hash, util/htab.c:52-61; xhash, lib/std/htab.myr:42-51 *)
Definition hashk (k : K) : N := if hash k =? 0 then 1 else hash k.

(* i = (h + di) & (sz - 1): util/htab.c:112,123,152,156; lib/std/htab.myr:87,91,100,138,146 *)
Definition pos (h di : N) (sz : nat) : nat := N.to_nat (N.land (h + di) (N.of_nat sz - 1)).
Definition at_ (t : tab K V) (h di : N) : slot K V := nth (pos h di (length t)) t None.

(* The search loop of htput: util/htab.c:113-124 and lib/std/htab.myr:140-147.
   Some (i, true): an equal live key was found at i ("conflicted" / found);
   Some (i, false): stopped at i, a never-used or dead slot;
   None: no slot stops the loop.  After as many steps as there are slots every slot has been seen
   unchanged, so running out of fuel (= number of slots) means the C loop never ends. *)
Fixpoint put_find (fuel : nat) (t : tab K V) (h : N) (k : K) (di : N) : option (nat * bool) :=
  match fuel with
  | O => None
  | S f =>
      match at_ t h di with
      | None => Some (pos h di (length t), false)
      | Some (_, _, _, true) => Some (pos h di (length t), false)
      | Some (h', k', _, false) =>
          if (h' =? h) && cmp k' k then Some (pos h di (length t), true)
          else put_find f t h k (di + 1)
      end
  end.

(* The live entries in slot order: the loops util/htab.c:90-92,214-216;
   lib/std/htab.myr:70-74,202-206 and the iterator 223-229. *)
Definition entries (t : tab K V) : list (K * V) :=
  flat_map (fun s => match s with Some (_, k, v, false) => [(k, v)] | _ => [] end) t.
End OA.
