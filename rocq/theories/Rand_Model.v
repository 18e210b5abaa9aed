(* Model of lib/std/rand.myr (C103 to C105).  A generator is its two 64-bit words. *)
From Coq Require Import List Arith NArith ZArith.
Import ListNotations.
Open Scope N_scope.

Definition w64 (x : N) : N := x mod 2 ^ 64.
(* mksrng, lib/std/rand.myr:41-46: a shift binds tighter than & (parse/gram.y:753-779), so the second mask is 0xffff0000 >> 16 *)
Definition mksrng (seed : N) : N * N := (N.land seed 0xffff, N.land seed (N.shiftr 0xffff0000 16)).
(* rngrandnum, lib/std/rand.myr:93-105, before the result is cut to its type *)
Definition rngrandnum (rng : N * N) : (N * N) * N :=
  let '(s0, s1) := rng in
  let r := w64 (s0 + s1) in
  let s1 := N.lxor s1 s0 in
  ((N.lxor (N.lxor (N.lor (w64 (N.shiftl s0 55)) (N.shiftr s0 9)) s1) (w64 (N.shiftl s1 14)),
    N.lor (w64 (N.shiftl s1 36)) (N.shiftr s1 28)), r).
(* putle64, lib/std/putint.myr:27 and :49-55: the eight bytes, lowest first *)
Definition putle64 (r : N) : list N := map (fun i => N.land (N.shiftr r (8 * N.of_nat i)) 0xff) (seq 0 8).
(* the first loop of rngrandbytes, lib/std/rand.myr:74-78; k rounds left *)
Fixpoint wordloop (k : nat) (rng : N * N) : (N * N) * list N :=
  match k with
  | O => (rng, [])
  | S k => let '(rng, r) := rngrandnum rng in let '(rng, rest) := wordloop k rng in (rng, putle64 r ++ rest)
  end.
(* the second loop, lib/std/rand.myr:80-83; k rounds left *)
Fixpoint tailloop (k : nat) (r : N) : list N :=
  match k with O => [] | S k => N.land r 0xff :: tailloop k (N.shiftr r 8) end.
(* rngrandbytes, lib/std/rand.myr:70-84, for a buffer of n bytes; i + 8 < n / 8 holds for the first n / 8 - 8 values of i *)
Definition rngrandbytes (rng : N * N) (n : nat) : (N * N) * list N :=
  let '(rng, front) := wordloop (n / 8 - 8) rng in
  let '(rng, r) := rngrandnum rng in
  (rng, front ++ tailloop (n - 8 * (n / 8 - 8)) r).

(* the loop of rngrand, lib/std/rand.myr:62-66; max is one less than a power of two, so & max is the remainder by max + 1.
   None: the fuel is used up. *)
Definition accepted (max span val : Z) : bool := negb (max / span * span <? val)%Z.
Fixpoint draw (fuel : nat) (rng : N * N) (max span : Z) : option ((N * N) * Z) :=
  match fuel with
  | O => None
  | S fuel =>
      let '(rng, r) := rngrandnum rng in
      let val := (Z.of_N r mod (max + 1))%Z in
      if accepted max span val then Some (rng, val) else draw fuel rng max span
  end.
(* rngrand, lib/std/rand.myr:52-68, for a type whose greatest value is max, where hi - lo does not overflow; None also for
   the division by a span of 0 *)
Definition rngrand (fuel : nat) (rng : N * N) (max lo hi : Z) : option ((N * N) * Z) :=
  let span := Z.abs (hi - lo) in
  if (span =? 0)%Z then None
  else match draw fuel rng max span with Some (rng, val) => Some (rng, (val mod span + lo)%Z) | None => None end.
