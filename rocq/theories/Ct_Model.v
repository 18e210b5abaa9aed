(* Model of lib/crypto/ct.myr (C93, C94).  A value of an unsigned type of w bits is a number below 2^w; a std.size is a
   signed number of 64 bits, here an integer. *)
From Verif Require Import Base ListX.
From Coq Require Import NArith.
Open Scope N_scope.

(* a - b and -q on w bits *)
Definition sub (w a b : N) : N := (2 ^ w + a - b) mod 2 ^ w.
Definition neg (w q : N) : N := sub w 0 q.
(* not, lib/crypto/ct.myr:18-20 *)
Definition not (a : N) : N := N.lxor a 1.
(* eq, lib/crypto/ct.myr:22-26; nshift is w - 1 *)
Definition eq (w a b : N) : N := let q := N.lxor a b in N.lxor (N.shiftr (N.lor q (neg w q)) (w - 1)) 1.
(* gt, lib/crypto/ct.myr:28-38 *)
Definition gt (w a b : N) : N := let z := sub w b a in N.shiftr (N.lxor z (N.land (N.lxor a b) (N.lxor a z))) (w - 1).
(* lt, lib/crypto/ct.myr:44-48 *)
Definition lt (w a b : N) : N := let z := sub w a b in N.shiftr (N.lxor z (N.land (N.lxor b a) (N.lxor b a))) (w - 1).
(* ge, lib/crypto/ct.myr:40-42 *)
Definition ge (w a b : N) : N := N.lxor (lt w a b) 1.
(* le, lib/crypto/ct.myr:50-52 *)
Definition le (w a b : N) : N := N.lxor (gt w a b) 1.
(* ne, lib/crypto/ct.myr:54-58 *)
Definition ne (w a b : N) : N := let q := N.lxor a b in N.shiftr (N.lor q (neg w q)) (w - 1).
(* mux, lib/crypto/ct.myr:60-62 *)
Definition mux (w c a b : N) : N := N.lxor b (N.land (neg w c) (N.lxor a b)).
(* min and max, lib/crypto/ct.myr:64-76 *)
Definition min (w a b : N) : N := mux w (lt w a b) a b.
Definition max (w a b : N) : N := mux w (lt w a b) b a.

(* lt, mux and min at the type std.size: the shift is arithmetic (6/isel.c:997-1001), and for lengths, which lie between 0
   and 2^63, no operation wraps *)
Definition slt (a b : Z) : Z := let z := (a - b)%Z in Z.shiftr (Z.lxor z (Z.land (Z.lxor b a) (Z.lxor b a))) 63.
Definition smux (c a b : Z) : Z := Z.lxor b (Z.land (- c) (Z.lxor a b)).
Definition smin (a b : Z) : Z := smux (slt a b) a b.
(* the loop of bufeq, lib/crypto/ct.myr:83-85, for n more rounds; an index out of range aborts *)
Fixpoint eqloop (n i : nat) (a b : list N) (r : N) : option N :=
  match n with
  | O => Some r
  | S n => match nth_error a i, nth_error b i with
           | Some x, Some y => eqloop n (S i) a b (mux 8 r (eq 8 x y) r)
           | _, _ => None
           end
  end.
(* bufeq, lib/crypto/ct.myr:78-87 *)
Definition bufeq (a b : list N) : option bool :=
  let n := smin (Z.of_nat (length a)) (Z.of_nat (length b)) in
  option_map (fun r => negb (r =? 0)) (eqloop (Z.to_nat n) 0 a b 1).
