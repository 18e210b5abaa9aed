(* C89-C92: the hash functions, as their standards define them: MD5 (RFC 1321), SHA-1, SHA-224, SHA-256, SHA-384 and
   SHA-512 (FIPS 180-4), Keccak with its original padding (FIPS 202 apart from the suffix), and HMAC (RFC 2104).
   Nothing here is taken from the code; the constants are computed from their definitions. *)
From Coq Require Import List Arith NArith ZArith Bool.
Import ListNotations.
Open Scope N_scope.

Definition is_byte (b : N) : Prop := b < 256.
(* ---- words of w bits ---- *)
Definition wadd (w x y : N) : N := (x + y) mod 2 ^ w.
Definition rotl (w n x : N) : N := N.lor (N.shiftl x n mod 2 ^ w) (N.shiftr x (w - n)).
Definition rotr (w n x : N) : N := N.lor (N.shiftr x n) (N.shiftl x (w - n) mod 2 ^ w).
Definition sum (w : N) (l : list N) : N := fold_left (fun s x => wadd w s x) l 0.
(* the number written by bytes, most or least significant first, and the n bytes that write a number *)
Definition num_be (l : list N) : N := fold_left (fun v b => v * 256 + b) l 0.
Definition num_le (l : list N) : N := fold_right (fun b v => b + 256 * v) 0 l.
Definition bytes_le (n : nat) (v : N) : list N := map (fun i => (v / 256 ^ N.of_nat i) mod 256) (seq 0 n).
Definition bytes_be (n : nat) (v : N) : list N := rev (bytes_le n v).
(* consecutive pieces of B bytes *)
Definition chunks {A} (B : nat) (p : list A) : list (list A) := map (fun i => firstn B (skipn (i * B) p)) (seq 0 (length p / B)).
(* ---- padding: a one bit, the fewest zero bits that fill the last block, and the length in bits ---- *)
Definition pad (B L : nat) (enc : nat -> N -> list N) (m : list N) : list N :=
  m ++ [128] ++ repeat 0 ((B - (length m + 1 + L) mod B) mod B) ++ enc L (8 * N.of_nat (length m)).
Definition hash {X} (B L : nat) (enc : nat -> N -> list N) (compress : X -> list N -> X) (init : X) (out : X -> list N) (m : list N) : list N :=
  out (fold_left compress (chunks B (pad B L enc m)) init).

(* ---- MD5, RFC 1321, 3.4 ---- *)
Definition nt (x : N) : N := N.lnot x 32.
Definition md5_f (r : nat) (x y z : N) : N :=
  match r with
  | 0%nat => N.lor (N.land x y) (N.land (nt x) z)
  | 1%nat => N.lor (N.land x z) (N.land y (nt z))
  | 2%nat => N.lxor (N.lxor x y) z
  | _ => N.lxor y (N.lor x (nt z))
  end.
Definition md5_k (r j : nat) : nat := match r with 0 => j | 1 => (1 + 5 * j) mod 16 | 2 => (5 + 3 * j) mod 16 | _ => (7 * j) mod 16 end%nat.
Definition md5_s (r j : nat) : N :=
  nth (j mod 4) (match r with 0%nat => [7; 12; 17; 22] | 1%nat => [5; 9; 14; 20] | 2%nat => [4; 11; 16; 23] | _ => [6; 10; 15; 21] end) 0.
(* the i-th constant is the integer part of 4294967296 times abs(sin(i)).  Sines are numbers with 128 bits after the point:
   those of 1 from the series (40 terms), the others by the sine and cosine of i+1; for i up to 64 the error is below 2^-110. *)
Fixpoint series (n : nat) (term k : Z) : Z :=
  match n with O => 0%Z | S n => (term + series n (- term / ((k + 1) * (k + 2))) (k + 2))%Z end.
Definition sin1 : Z := series 40 (2 ^ 128) 1.
Definition cos1 : Z := series 40 (2 ^ 128) 0.
Fixpoint sines (n : nat) (s c : Z) : list Z :=
  match n with O => [] | S n => s :: sines n ((s * cos1 + c * sin1) / 2 ^ 128)%Z ((c * cos1 - s * sin1) / 2 ^ 128)%Z end.
Definition md5_table : list N := map (fun s => Z.to_N (Z.abs s / 2 ^ (128 - 32))%Z) (sines 64 sin1 cos1).
Definition md5_t (i : nat) : N := nth (i - 1) md5_table 0.
(* operation j of round r: a = b + ((a + F(b,c,d) + X[k] + T[i]) <<< s), and the names move on by one *)
Definition md5_op (X : list N) (st : N * N * N * N) (rj : nat * nat) : N * N * N * N :=
  let '(a, b, c, d) := st in let '(r, j) := rj in
  (d, wadd 32 b (rotl 32 (md5_s r j) (sum 32 [a; md5_f r b c d; nth (md5_k r j) X 0; md5_t (16 * r + j + 1)%nat])), b, c).
Definition md5_ops : list (nat * nat) := list_prod [0; 1; 2; 3]%nat (seq 0 16).
Definition md5_compress (st : N * N * N * N) (block : list N) : N * N * N * N :=
  let '(a, b, c, d) := st in
  let '(a', b', c', d') := fold_left (md5_op (map num_le (chunks 4 block))) md5_ops st in
  (wadd 32 a a', wadd 32 b b', wadd 32 c c', wadd 32 d d').
Definition md5 (m : list N) : list N :=
  hash 64 8 (fun n v => bytes_le n (v mod 2 ^ 64)) md5_compress (0x67452301, 0xefcdab89, 0x98badcfe, 0x10325476)
    (fun '(a, b, c, d) => concat (map (bytes_le 4) [a; b; c; d])) m.

(* ---- SHA-1, FIPS 180-4, 4.1.1 and 6.1 ---- *)
Definition ch (w x y z : N) : N := N.lxor (N.land x y) (N.land (N.lnot x w) z).
Definition maj (x y z : N) : N := N.lxor (N.lxor (N.land x y) (N.land x z)) (N.land y z).
Definition parity (x y z : N) : N := N.lxor (N.lxor x y) z.
Definition sha1_f (t : nat) : N -> N -> N -> N :=
  if (t <? 20)%nat then ch 32 else if (t <? 40)%nat then parity else if (t <? 60)%nat then maj else parity.
Definition sha1_k (t : nat) : N :=
  if (t <? 20)%nat then 0x5a827999 else if (t <? 40)%nat then 0x6ed9eba1 else if (t <? 60)%nat then 0x8f1bbcdc else 0xca62c1d6.
Fixpoint sha1_schedule (n : nat) (W : list N) : list N :=
  match n with
  | O => W
  | S n => let t := length W in let w i := nth (t - i) W 0 in
           sha1_schedule n (W ++ [rotl 32 1 (N.lxor (N.lxor (N.lxor (w 3%nat) (w 8%nat)) (w 14%nat)) (w 16%nat))])
  end.
Definition sha1_round (st : N * N * N * N * N) (tw : nat * N) : N * N * N * N * N :=
  let '(a, b, c, d, e) := st in let '(t, w) := tw in
  (sum 32 [rotl 32 5 a; sha1_f t b c d; e; sha1_k t; w], a, rotl 32 30 b, c, d).
Definition sha1_compress (st : N * N * N * N * N) (block : list N) : N * N * N * N * N :=
  let '(a, b, c, d, e) := st in
  let '(a', b', c', d', e') := fold_left sha1_round (combine (seq 0 80) (sha1_schedule 64 (map num_be (chunks 4 block)))) st in
  (wadd 32 a a', wadd 32 b b', wadd 32 c c', wadd 32 d d', wadd 32 e e').
Definition sha1 (m : list N) : list N :=
  hash 64 8 bytes_be sha1_compress (0x67452301, 0xefcdab89, 0x98badcfe, 0x10325476, 0xc3d2e1f0)
    (fun '(a, b, c, d, e) => concat (map (bytes_be 4) [a; b; c; d; e])) m.

(* ---- SHA-2, FIPS 180-4, 4.1.2, 4.1.3, 4.2.2, 4.2.3, 5.3, 6.2 to 6.5 ---- *)
Definition primes : list N :=
  filter (fun n => forallb (fun d => negb (n mod N.of_nat d =? 0)) (seq 2 (N.to_nat (N.sqrt n) - 1))) (map N.of_nat (seq 2 420)).
(* the largest n with n^3 <= v, by bisection *)
Fixpoint cbrt (k : nat) (n v : N) : N :=
  match k with O => n | S k => let n' := n + 2 ^ N.of_nat k in cbrt k (if n' ^ 3 <=? v then n' else n) v end.
(* the first w bits of the fractional part of the cube root, or square root, of p *)
Definition frac_cbrt (w p : N) : N := cbrt (N.to_nat w + 4) 0 (p * 2 ^ (3 * w)) mod 2 ^ w.
Definition frac_sqrt (w p : N) : N := N.sqrt (p * 2 ^ (2 * w)) mod 2 ^ w.

Definition state := (N * N * N * N * N * N * N * N)%type.
Section sha2.
  Variables (w : N) (S0 S1 s0 s1 : N -> N).
  Fixpoint sha2_schedule (n : nat) (W : list N) : list N :=
    match n with
    | O => W
    | S n => let t := length W in let v i := nth (t - i) W 0 in
             sha2_schedule n (W ++ [sum w [s1 (v 2%nat); v 7%nat; s0 (v 15%nat); v 16%nat]])
    end.
  Definition sha2_round (st : state) (kw : N * N) : state :=
    let '(a, b, c, d, e, f, g, h) := st in let '(k, x) := kw in
    let T1 := sum w [h; S1 e; ch w e f g; k; x] in
    let T2 := sum w [S0 a; maj a b c] in
    (wadd w T1 T2, a, b, c, wadd w d T1, e, f, g).
  Definition sha2_compress (n : nat) (K : list N) (st : state) (block : list N) : state :=
    let '(a, b, c, d, e, f, g, h) := st in
    let '(a', b', c', d', e', f', g', h') :=
      fold_left sha2_round (combine K (sha2_schedule (n - 16) (map num_be (chunks (N.to_nat (w / 8)) block)))) st in
    (wadd w a a', wadd w b b', wadd w c c', wadd w d d', wadd w e e', wadd w f f', wadd w g g', wadd w h h').
  Definition sha2_out (n : nat) (st : state) : list N :=
    let '(a, b, c, d, e, f, g, h) := st in firstn n (concat (map (bytes_be (N.to_nat (w / 8))) [a; b; c; d; e; f; g; h])).
End sha2.
Definition S0_32 x := N.lxor (N.lxor (rotr 32 2 x) (rotr 32 13 x)) (rotr 32 22 x).
Definition S1_32 x := N.lxor (N.lxor (rotr 32 6 x) (rotr 32 11 x)) (rotr 32 25 x).
Definition s0_32 x := N.lxor (N.lxor (rotr 32 7 x) (rotr 32 18 x)) (N.shiftr x 3).
Definition s1_32 x := N.lxor (N.lxor (rotr 32 17 x) (rotr 32 19 x)) (N.shiftr x 10).
Definition S0_64 x := N.lxor (N.lxor (rotr 64 28 x) (rotr 64 34 x)) (rotr 64 39 x).
Definition S1_64 x := N.lxor (N.lxor (rotr 64 14 x) (rotr 64 18 x)) (rotr 64 41 x).
Definition s0_64 x := N.lxor (N.lxor (rotr 64 1 x) (rotr 64 8 x)) (N.shiftr x 7).
Definition s1_64 x := N.lxor (N.lxor (rotr 64 19 x) (rotr 64 61 x)) (N.shiftr x 6).
Definition K256 : list N := map (frac_cbrt 32) (firstn 64 primes).
Definition K512 : list N := map (frac_cbrt 64) (firstn 80 primes).
Definition eight (l : list N) : state := match l with [a; b; c; d; e; f; g; h] => (a, b, c, d, e, f, g, h) | _ => (0, 0, 0, 0, 0, 0, 0, 0) end.
Definition compress256 := sha2_compress 32 S0_32 S1_32 s0_32 s1_32 64 K256.
Definition compress512 := sha2_compress 64 S0_64 S1_64 s0_64 s1_64 80 K512.
Definition sha256 : list N -> list N := hash 64 8 bytes_be compress256 (eight (map (frac_sqrt 32) (firstn 8 primes))) (sha2_out 32 32).
(* SHA-224 starts with the second 32 bits of the fractional parts of the roots of the 9th to 16th primes *)
Definition sha224 : list N -> list N :=
  hash 64 8 bytes_be compress256 (eight (map (fun p => frac_sqrt 64 p mod 2 ^ 32) (firstn 8 (skipn 8 primes)))) (sha2_out 32 28).
Definition sha512 : list N -> list N := hash 128 16 bytes_be compress512 (eight (map (frac_sqrt 64) (firstn 8 primes))) (sha2_out 64 64).
Definition sha384 : list N -> list N := hash 128 16 bytes_be compress512 (eight (map (frac_sqrt 64) (firstn 8 (skipn 8 primes)))) (sha2_out 64 48).

(* ---- Keccak-f[1600] and the sponge, FIPS 202, 3.2, 3.3, 4 and 5.1 ---- *)
Definition lane (A : list N) (x y : nat) : N := nth (x mod 5 + 5 * (y mod 5)) A 0.
Definition lanes (f : nat -> nat -> N) : list N := map (fun i => f (i mod 5) (i / 5))%nat (seq 0 25).
Definition theta (A : list N) : list N :=
  let C x := N.lxor (N.lxor (N.lxor (N.lxor (lane A x 0) (lane A x 1)) (lane A x 2)) (lane A x 3)) (lane A x 4) in
  lanes (fun x y => N.lxor (lane A x y) (N.lxor (C (x + 4)%nat) (rotl 64 1 (C (x + 1)%nat)))).
(* the offsets of rho: from (1, 0), each place (x, y) is followed by (y, 2x+3y) *)
Fixpoint rho_offsets (n t x y : nat) : list (nat * nat * N) :=
  match n with
  | O => []
  | S n => (x, y, N.of_nat (((t + 1) * (t + 2) / 2) mod 64)%nat) :: rho_offsets n (t + 1) y ((2 * x + 3 * y) mod 5)
  end.
Definition rho_offset (x y : nat) : N :=
  match find (fun p => (fst (fst p) =? x) && (snd (fst p) =? y))%nat (rho_offsets 24 0 1 0) with Some (_, _, o) => o | None => 0 end.
Definition rho (A : list N) : list N := lanes (fun x y => let o := rho_offset x y in if o =? 0 then lane A x y else rotl 64 o (lane A x y)).
Definition pi (A : list N) : list N := lanes (fun x y => lane A (x + 3 * y)%nat x).
Definition chi (A : list N) : list N :=
  lanes (fun x y => N.lxor (lane A x y) (N.land (N.lnot (lane A (x + 1)%nat y) 64) (lane A (x + 2)%nat y))).
(* the bit rc(t), from the shift register of FIPS 202, algorithm 5 *)
Definition lfsr (R : list bool) : list bool :=
  match R with
  | [r0; r1; r2; r3; r4; r5; r6; r7] => [r7; r0; r1; r2; xorb r3 r7; xorb r4 r7; xorb r5 r7; r6]
  | _ => R
  end.
Definition rc (t : nat) : bool := hd false (Nat.iter (t mod 255) lfsr [true; false; false; false; false; false; false; false]).
Definition round_const (ir : nat) : N :=
  fold_left (fun v j => if rc (j + 7 * ir) then N.lor v (2 ^ (2 ^ N.of_nat j - 1)) else v) (seq 0 7) 0.
Definition iota (ir : nat) (A : list N) : list N :=
  lanes (fun x y => if ((x =? 0) && (y =? 0))%nat then N.lxor (lane A x y) (round_const ir) else lane A x y).
Definition keccak_f (A : list N) : list N := fold_left (fun A ir => iota ir (chi (pi (rho (theta A))))) (seq 0 24) A.
(* the message is followed by a one bit, zero bits and a one bit, to a multiple of the rate; r is the rate in bytes *)
Definition pad101 (r : nat) (m : list N) : list N :=
  match (r - length m mod r)%nat with 1%nat => m ++ [129] | q => m ++ [1] ++ repeat 0 (q - 2) ++ [128] end.
Definition absorb (A : list N) (block : list N) : list N :=
  let B := map num_le (chunks 8 block) in keccak_f (map (fun i => N.lxor (nth i A 0) (nth i B 0)) (seq 0 25)).
(* d is the size of the digest in bytes *)
Definition keccak (d : nat) (m : list N) : list N :=
  let r := (200 - 2 * d)%nat in
  firstn d (concat (map (bytes_le 8) (fold_left absorb (chunks r (pad101 r m)) (repeat 0 25)))).

(* ---- HMAC, RFC 2104; B is the block size of the hash ---- *)
Definition hmac (B : nat) (H : list N -> list N) (key text : list N) : list N :=
  let k := if (B <? length key)%nat then H key else key in
  let k := k ++ repeat 0 (B - length k) in
  H (map (N.lxor 0x5c) k ++ H (map (N.lxor 0x36) k ++ text)).
