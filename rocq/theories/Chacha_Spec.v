(* C95, C96: the ChaCha20 stream cipher with a 64-bit block counter and a 64-bit nonce (D. J. Bernstein, ChaCha, a variant
   of Salsa20).  Nothing here is taken from the code. *)
From Coq Require Import List Arith NArith.
From Verif Require Import Hash_Spec.
Import ListNotations.
Open Scope N_scope.

Definition qr (a b c d : N) : N * N * N * N :=
  let a := wadd 32 a b in let d := rotl 32 16 (N.lxor d a) in
  let c := wadd 32 c d in let b := rotl 32 12 (N.lxor b c) in
  let a := wadd 32 a b in let d := rotl 32 8 (N.lxor d a) in
  let c := wadd 32 c d in let b := rotl 32 7 (N.lxor b c) in
  (a, b, c, d).
Fixpoint set (l : list N) (i : nat) (v : N) : list N :=
  match l, i with [], _ => [] | _ :: l, O => v :: l | a :: l, S i => a :: set l i v end.
Definition quarter (x : list N) (p : nat * nat * nat * nat) : list N :=
  let '(i, j, k, l) := p in
  let '(a, b, c, d) := qr (nth i x 0) (nth j x 0) (nth k x 0) (nth l x 0) in
  set (set (set (set x i a) j b) k c) l d.
(* the columns and the diagonals of the square of words *)
Definition doubleround (x : list N) : list N :=
  fold_left quarter [(0, 4, 8, 12); (1, 5, 9, 13); (2, 6, 10, 14); (3, 7, 11, 15);
                     (0, 5, 10, 15); (1, 6, 11, 12); (2, 7, 8, 13); (3, 4, 9, 14)]%nat x.
(* the words of a text of bytes *)
Definition words (l : list N) : list N := map num_le (chunks 4 l).
(* expand 32-byte k, expand 16-byte k *)
Definition constants (key : list N) : list N :=
  if (length key =? 32)%nat then [101; 120; 112; 97; 110; 100; 32; 51; 50; 45; 98; 121; 116; 101; 32; 107]
  else [101; 120; 112; 97; 110; 100; 32; 49; 54; 45; 98; 121; 116; 101; 32; 107].
Definition start (key nonce : list N) (n : N) : list N :=
  words (constants key) ++ words (if (length key =? 32)%nat then key else key ++ key) ++ words (bytes_le 8 n) ++ words nonce.
Definition block (key nonce : list N) (n : N) : list N :=
  let s := start key nonce n in
  concat (map (bytes_le 4) (map (fun p => wadd 32 (fst p) (snd p)) (combine (Nat.iter 10 doubleround s) s))).
(* the bytes of k blocks from the n-th on; the counter has 64 bits *)
Definition keystream (key nonce : list N) (n : N) (k : nat) : list N :=
  concat (map (fun i => block key nonce ((n + N.of_nat i) mod 2 ^ 64)) (seq 0 k)).
Definition xor (a b : list N) : list N := map (fun p => N.lxor (fst p) (snd p)) (combine a b).
