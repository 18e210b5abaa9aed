(* C89-C92: lib/crypto/md5.myr, sha1.myr, sha256.myr, sha512.myr, sha3.myr and hmac.myr.
   Bytes and unsigned words are numbers; arithmetic on them is made exact by reducing modulo the size of the type.  A slice of
   bytes is a list.  None is an abort: slcp on slices of different lengths, or a slice out of bounds.  The step functions are
   written out in the code; here each assignment  v = e  or  v += e  is  v <~ e ;;  in the same order. *)
From Coq Require Import List Arith NArith Bool.
Import ListNotations.
Open Scope N_scope.

Definition add (w x y : N) : N := (x + y) mod 2 ^ w.
Definition shl (w x n : N) : N := N.shiftl x n mod 2 ^ w.
Definition bnd {A B} (e : A) (f : A -> B) : B := f e.
Notation "v <~ e ;; k" := (bnd e (fun v => k)) (at level 90, e at level 80, k at level 90, right associativity).
Declare Scope w32_scope.  Delimit Scope w32_scope with w32.
Notation "x + y" := (add 32 x%w32 y%w32) : w32_scope.
Notation "x ^ y" := (N.lxor x%w32 y%w32) : w32_scope.
Notation "x && y" := (N.land x%w32 y%w32) : w32_scope.
Notation "x || y" := (N.lor x%w32 y%w32) : w32_scope.
Notation "~ x" := (N.lnot x%w32 32) : w32_scope.
Notation "x << n" := (shl 32 x%w32 n%N) (at level 37, left associativity) : w32_scope.
Notation "x >> n" := (N.shiftr x%w32 n%N) (at level 37, left associativity) : w32_scope.
Declare Scope w64_scope.  Delimit Scope w64_scope with w64.
Notation "x + y" := (add 64 x%w64 y%w64) : w64_scope.
Notation "x ^ y" := (N.lxor x%w64 y%w64) : w64_scope.
Notation "x && y" := (N.land x%w64 y%w64) : w64_scope.
Notation "x || y" := (N.lor x%w64 y%w64) : w64_scope.
Notation "~ x" := (N.lnot x%w64 64) : w64_scope.
Notation "x << n" := (shl 64 x%w64 n%N) (at level 37, left associativity) : w64_scope.
Notation "x >> n" := (N.shiftr x%w64 n%N) (at level 37, left associativity) : w64_scope.
(* the conversion to byte *)
Definition tobyte (v : N) : N := v mod 256.
(* b[lo:hi] *)
Definition slice (b : list N) (lo hi : nat) : list N := firstn (hi - lo) (skipn lo b).
Definition idx (b : list N) (i : nat) : N := nth i b 0.

(* unpack, lib/crypto/md5.myr:228-237 *)
Definition unpack_md5 (b : list N) : N :=
  (((((0 || (idx b 0 << 0)) || (idx b 1 << 8)) || (idx b 2 << 16)) || (idx b 3 << 24)))%w32.
(* unpack, lib/crypto/sha1.myr:256-265 *)
Definition unpack_sha1 (b : list N) : N :=
  (((((0 || (idx b 0 << 24)) || (idx b 1 << 16)) || (idx b 2 << 8)) || (idx b 3 << 0)))%w32.
(* unpack, lib/crypto/sha256.myr:438-447 *)
Definition unpack_sha256 (b : list N) : N :=
  (((((0 || (idx b 0 << 24)) || (idx b 1 << 16)) || (idx b 2 << 8)) || (idx b 3 << 0)))%w32.
(* unpack, lib/crypto/sha512.myr:489-502 *)
Definition unpack_sha512 (b : list N) : N :=
  (((((((((0 || (idx b 0 << 56)) || (idx b 1 << 48)) || (idx b 2 << 40)) || (idx b 3 << 32)) || (idx b 4 << 24)) || (idx b 5 << 16))
     || (idx b 6 << 8)) || (idx b 7 << 0)))%w64.
(* pack, lib/crypto/sha256.myr:449-454 *)
Definition pack_sha256 (v : N) : list N := [tobyte (N.shiftr v 24); tobyte (N.shiftr v 16); tobyte (N.shiftr v 8); tobyte (N.shiftr v 0)].
(* pack, lib/crypto/sha512.myr:504-513 *)
Definition pack_sha512 (v : N) : list N :=
  [tobyte (N.shiftr v 56); tobyte (N.shiftr v 48); tobyte (N.shiftr v 40); tobyte (N.shiftr v 32);
   tobyte (N.shiftr v 24); tobyte (N.shiftr v 16); tobyte (N.shiftr v 8); tobyte (N.shiftr v 0)].

(* K0 to K3, lib/crypto/sha1.myr:131-134 *)
Definition K0 : N := 0x5a827999.
Definition K1 : N := 0x6ed9eba1.
Definition K2 : N := 0x8f1bbcdc.
Definition K3 : N := 0xCA62C1D6.

(* step, lib/crypto/md5.myr:123-226, statement by statement.  The array or struct is a tuple. *)
Definition step_md5 (st : N * N * N * N) (blk : list N) : N * N * N * N :=
  let '(a, b, c, d) := st in
  let '(xa, xb, xc, xd) := st in (
  s00 <~ unpack_md5 (slice blk 0 4) ;;
  s01 <~ unpack_md5 (slice blk 4 8) ;;
  s02 <~ unpack_md5 (slice blk 8 12) ;;
  s03 <~ unpack_md5 (slice blk 12 16) ;;
  s04 <~ unpack_md5 (slice blk 16 20) ;;
  s05 <~ unpack_md5 (slice blk 20 24) ;;
  s06 <~ unpack_md5 (slice blk 24 28) ;;
  s07 <~ unpack_md5 (slice blk 28 32) ;;
  s08 <~ unpack_md5 (slice blk 32 36) ;;
  s09 <~ unpack_md5 (slice blk 36 40) ;;
  s10 <~ unpack_md5 (slice blk 40 44) ;;
  s11 <~ unpack_md5 (slice blk 44 48) ;;
  s12 <~ unpack_md5 (slice blk 48 52) ;;
  s13 <~ unpack_md5 (slice blk 52 56) ;;
  s14 <~ unpack_md5 (slice blk 56 60) ;;
  s15 <~ unpack_md5 (slice blk 60 64) ;;
  a <~ (a + (((d ^ (b && (c ^ d))) + 0xd76aa478) + s00)) ;;
  a <~ (b + ((a << 7) || (a >> 25))) ;;
  d <~ (d + (((c ^ (a && (b ^ c))) + 0xe8c7b756) + s01)) ;;
  d <~ (a + ((d << 12) || (d >> 20))) ;;
  c <~ (c + (((b ^ (d && (a ^ b))) + 0x242070db) + s02)) ;;
  c <~ (d + ((c << 17) || (c >> 15))) ;;
  b <~ (b + (((a ^ (c && (d ^ a))) + 0xc1bdceee) + s03)) ;;
  b <~ (c + ((b << 22) || (b >> 10))) ;;
  a <~ (a + (((d ^ (b && (c ^ d))) + 0xf57c0faf) + s04)) ;;
  a <~ (b + ((a << 7) || (a >> 25))) ;;
  d <~ (d + (((c ^ (a && (b ^ c))) + 0x4787c62a) + s05)) ;;
  d <~ (a + ((d << 12) || (d >> 20))) ;;
  c <~ (c + (((b ^ (d && (a ^ b))) + 0xa8304613) + s06)) ;;
  c <~ (d + ((c << 17) || (c >> 15))) ;;
  b <~ (b + (((a ^ (c && (d ^ a))) + 0xfd469501) + s07)) ;;
  b <~ (c + ((b << 22) || (b >> 10))) ;;
  a <~ (a + (((d ^ (b && (c ^ d))) + 0x698098d8) + s08)) ;;
  a <~ (b + ((a << 7) || (a >> 25))) ;;
  d <~ (d + (((c ^ (a && (b ^ c))) + 0x8b44f7af) + s09)) ;;
  d <~ (a + ((d << 12) || (d >> 20))) ;;
  c <~ (c + (((b ^ (d && (a ^ b))) + 0xffff5bb1) + s10)) ;;
  c <~ (d + ((c << 17) || (c >> 15))) ;;
  b <~ (b + (((a ^ (c && (d ^ a))) + 0x895cd7be) + s11)) ;;
  b <~ (c + ((b << 22) || (b >> 10))) ;;
  a <~ (a + (((d ^ (b && (c ^ d))) + 0x6b901122) + s12)) ;;
  a <~ (b + ((a << 7) || (a >> 25))) ;;
  d <~ (d + (((c ^ (a && (b ^ c))) + 0xfd987193) + s13)) ;;
  d <~ (a + ((d << 12) || (d >> 20))) ;;
  c <~ (c + (((b ^ (d && (a ^ b))) + 0xa679438e) + s14)) ;;
  c <~ (d + ((c << 17) || (c >> 15))) ;;
  b <~ (b + (((a ^ (c && (d ^ a))) + 0x49b40821) + s15)) ;;
  b <~ (c + ((b << 22) || (b >> 10))) ;;
  a <~ (a + (((c ^ (d && (b ^ c))) + 0xf61e2562) + s01)) ;;
  a <~ (b + ((a << 5) || (a >> 27))) ;;
  d <~ (d + (((b ^ (c && (a ^ b))) + 0xc040b340) + s06)) ;;
  d <~ (a + ((d << 9) || (d >> 23))) ;;
  c <~ (c + (((a ^ (b && (d ^ a))) + 0x265e5a51) + s11)) ;;
  c <~ (d + ((c << 14) || (c >> 18))) ;;
  b <~ (b + (((d ^ (a && (c ^ d))) + 0xe9b6c7aa) + s00)) ;;
  b <~ (c + ((b << 20) || (b >> 12))) ;;
  a <~ (a + (((c ^ (d && (b ^ c))) + 0xd62f105d) + s05)) ;;
  a <~ (b + ((a << 5) || (a >> 27))) ;;
  d <~ (d + (((b ^ (c && (a ^ b))) + 0x02441453) + s10)) ;;
  d <~ (a + ((d << 9) || (d >> 23))) ;;
  c <~ (c + (((a ^ (b && (d ^ a))) + 0xd8a1e681) + s15)) ;;
  c <~ (d + ((c << 14) || (c >> 18))) ;;
  b <~ (b + (((d ^ (a && (c ^ d))) + 0xe7d3fbc8) + s04)) ;;
  b <~ (c + ((b << 20) || (b >> 12))) ;;
  a <~ (a + (((c ^ (d && (b ^ c))) + 0x21e1cde6) + s09)) ;;
  a <~ (b + ((a << 5) || (a >> 27))) ;;
  d <~ (d + (((b ^ (c && (a ^ b))) + 0xc33707d6) + s14)) ;;
  d <~ (a + ((d << 9) || (d >> 23))) ;;
  c <~ (c + (((a ^ (b && (d ^ a))) + 0xf4d50d87) + s03)) ;;
  c <~ (d + ((c << 14) || (c >> 18))) ;;
  b <~ (b + (((d ^ (a && (c ^ d))) + 0x455a14ed) + s08)) ;;
  b <~ (c + ((b << 20) || (b >> 12))) ;;
  a <~ (a + (((c ^ (d && (b ^ c))) + 0xa9e3e905) + s13)) ;;
  a <~ (b + ((a << 5) || (a >> 27))) ;;
  d <~ (d + (((b ^ (c && (a ^ b))) + 0xfcefa3f8) + s02)) ;;
  d <~ (a + ((d << 9) || (d >> 23))) ;;
  c <~ (c + (((a ^ (b && (d ^ a))) + 0x676f02d9) + s07)) ;;
  c <~ (d + ((c << 14) || (c >> 18))) ;;
  b <~ (b + (((d ^ (a && (c ^ d))) + 0x8d2a4c8a) + s12)) ;;
  b <~ (c + ((b << 20) || (b >> 12))) ;;
  a <~ (a + ((((b ^ c) ^ d) + 0xfffa3942) + s05)) ;;
  a <~ (b + ((a << 4) || (a >> 28))) ;;
  d <~ (d + ((((a ^ b) ^ c) + 0x8771f681) + s08)) ;;
  d <~ (a + ((d << 11) || (d >> 21))) ;;
  c <~ (c + ((((d ^ a) ^ b) + 0x6d9d6122) + s11)) ;;
  c <~ (d + ((c << 16) || (c >> 16))) ;;
  b <~ (b + ((((c ^ d) ^ a) + 0xfde5380c) + s14)) ;;
  b <~ (c + ((b << 23) || (b >> 9))) ;;
  a <~ (a + ((((b ^ c) ^ d) + 0xa4beea44) + s01)) ;;
  a <~ (b + ((a << 4) || (a >> 28))) ;;
  d <~ (d + ((((a ^ b) ^ c) + 0x4bdecfa9) + s04)) ;;
  d <~ (a + ((d << 11) || (d >> 21))) ;;
  c <~ (c + ((((d ^ a) ^ b) + 0xf6bb4b60) + s07)) ;;
  c <~ (d + ((c << 16) || (c >> 16))) ;;
  b <~ (b + ((((c ^ d) ^ a) + 0xbebfbc70) + s10)) ;;
  b <~ (c + ((b << 23) || (b >> 9))) ;;
  a <~ (a + ((((b ^ c) ^ d) + 0x289b7ec6) + s13)) ;;
  a <~ (b + ((a << 4) || (a >> 28))) ;;
  d <~ (d + ((((a ^ b) ^ c) + 0xeaa127fa) + s00)) ;;
  d <~ (a + ((d << 11) || (d >> 21))) ;;
  c <~ (c + ((((d ^ a) ^ b) + 0xd4ef3085) + s03)) ;;
  c <~ (d + ((c << 16) || (c >> 16))) ;;
  b <~ (b + ((((c ^ d) ^ a) + 0x04881d05) + s06)) ;;
  b <~ (c + ((b << 23) || (b >> 9))) ;;
  a <~ (a + ((((b ^ c) ^ d) + 0xd9d4d039) + s09)) ;;
  a <~ (b + ((a << 4) || (a >> 28))) ;;
  d <~ (d + ((((a ^ b) ^ c) + 0xe6db99e5) + s12)) ;;
  d <~ (a + ((d << 11) || (d >> 21))) ;;
  c <~ (c + ((((d ^ a) ^ b) + 0x1fa27cf8) + s15)) ;;
  c <~ (d + ((c << 16) || (c >> 16))) ;;
  b <~ (b + ((((c ^ d) ^ a) + 0xc4ac5665) + s02)) ;;
  b <~ (c + ((b << 23) || (b >> 9))) ;;
  a <~ (a + (((c ^ (b || (~ d))) + 0xf4292244) + s00)) ;;
  a <~ (b + ((a << 6) || (a >> 26))) ;;
  d <~ (d + (((b ^ (a || (~ c))) + 0x432aff97) + s07)) ;;
  d <~ (a + ((d << 10) || (d >> 22))) ;;
  c <~ (c + (((a ^ (d || (~ b))) + 0xab9423a7) + s14)) ;;
  c <~ (d + ((c << 15) || (c >> 17))) ;;
  b <~ (b + (((d ^ (c || (~ a))) + 0xfc93a039) + s05)) ;;
  b <~ (c + ((b << 21) || (b >> 11))) ;;
  a <~ (a + (((c ^ (b || (~ d))) + 0x655b59c3) + s12)) ;;
  a <~ (b + ((a << 6) || (a >> 26))) ;;
  d <~ (d + (((b ^ (a || (~ c))) + 0x8f0ccc92) + s03)) ;;
  d <~ (a + ((d << 10) || (d >> 22))) ;;
  c <~ (c + (((a ^ (d || (~ b))) + 0xffeff47d) + s10)) ;;
  c <~ (d + ((c << 15) || (c >> 17))) ;;
  b <~ (b + (((d ^ (c || (~ a))) + 0x85845dd1) + s01)) ;;
  b <~ (c + ((b << 21) || (b >> 11))) ;;
  a <~ (a + (((c ^ (b || (~ d))) + 0x6fa87e4f) + s08)) ;;
  a <~ (b + ((a << 6) || (a >> 26))) ;;
  d <~ (d + (((b ^ (a || (~ c))) + 0xfe2ce6e0) + s15)) ;;
  d <~ (a + ((d << 10) || (d >> 22))) ;;
  c <~ (c + (((a ^ (d || (~ b))) + 0xa3014314) + s06)) ;;
  c <~ (d + ((c << 15) || (c >> 17))) ;;
  b <~ (b + (((d ^ (c || (~ a))) + 0x4e0811a1) + s13)) ;;
  b <~ (c + ((b << 21) || (b >> 11))) ;;
  a <~ (a + (((c ^ (b || (~ d))) + 0xf7537e82) + s04)) ;;
  a <~ (b + ((a << 6) || (a >> 26))) ;;
  d <~ (d + (((b ^ (a || (~ c))) + 0xbd3af235) + s11)) ;;
  d <~ (a + ((d << 10) || (d >> 22))) ;;
  c <~ (c + (((a ^ (d || (~ b))) + 0x2ad7d2bb) + s02)) ;;
  c <~ (d + ((c << 15) || (c >> 17))) ;;
  b <~ (b + (((d ^ (c || (~ a))) + 0xeb86d391) + s09)) ;;
  b <~ (c + ((b << 21) || (b >> 11))) ;;
  (xa + a, xb + b, xc + c, xd + d))%w32.

(* step, lib/crypto/sha1.myr:135-254, statement by statement.  The array or struct is a tuple. *)
Definition step_sha1 (st : N * N * N * N * N) (blk : list N) : N * N * N * N * N :=
  let '(a, b, c, d, e) := st in
  let '(xa, xb, xc, xd, xe) := st in (
  s00 <~ unpack_sha1 (slice blk 0 4) ;;
  s01 <~ unpack_sha1 (slice blk 4 8) ;;
  s02 <~ unpack_sha1 (slice blk 8 12) ;;
  s03 <~ unpack_sha1 (slice blk 12 16) ;;
  s04 <~ unpack_sha1 (slice blk 16 20) ;;
  s05 <~ unpack_sha1 (slice blk 20 24) ;;
  s06 <~ unpack_sha1 (slice blk 24 28) ;;
  s07 <~ unpack_sha1 (slice blk 28 32) ;;
  s08 <~ unpack_sha1 (slice blk 32 36) ;;
  s09 <~ unpack_sha1 (slice blk 36 40) ;;
  s10 <~ unpack_sha1 (slice blk 40 44) ;;
  s11 <~ unpack_sha1 (slice blk 44 48) ;;
  s12 <~ unpack_sha1 (slice blk 48 52) ;;
  s13 <~ unpack_sha1 (slice blk 52 56) ;;
  s14 <~ unpack_sha1 (slice blk 56 60) ;;
  s15 <~ unpack_sha1 (slice blk 60 64) ;;
  e <~ (e + (((((a << 5) || (a >> 27)) + (d ^ (b && (c ^ d)))) + s00) + K0)) ;;
  b <~ ((b << 30) || (b >> 2)) ;;
  d <~ (d + (((((e << 5) || (e >> 27)) + (c ^ (a && (b ^ c)))) + s01) + K0)) ;;
  a <~ ((a << 30) || (a >> 2)) ;;
  c <~ (c + (((((d << 5) || (d >> 27)) + (b ^ (e && (a ^ b)))) + s02) + K0)) ;;
  e <~ ((e << 30) || (e >> 2)) ;;
  b <~ (b + (((((c << 5) || (c >> 27)) + (a ^ (d && (e ^ a)))) + s03) + K0)) ;;
  d <~ ((d << 30) || (d >> 2)) ;;
  a <~ (a + (((((b << 5) || (b >> 27)) + (e ^ (c && (d ^ e)))) + s04) + K0)) ;;
  c <~ ((c << 30) || (c >> 2)) ;;
  e <~ (e + (((((a << 5) || (a >> 27)) + (d ^ (b && (c ^ d)))) + s05) + K0)) ;;
  b <~ ((b << 30) || (b >> 2)) ;;
  d <~ (d + (((((e << 5) || (e >> 27)) + (c ^ (a && (b ^ c)))) + s06) + K0)) ;;
  a <~ ((a << 30) || (a >> 2)) ;;
  c <~ (c + (((((d << 5) || (d >> 27)) + (b ^ (e && (a ^ b)))) + s07) + K0)) ;;
  e <~ ((e << 30) || (e >> 2)) ;;
  b <~ (b + (((((c << 5) || (c >> 27)) + (a ^ (d && (e ^ a)))) + s08) + K0)) ;;
  d <~ ((d << 30) || (d >> 2)) ;;
  a <~ (a + (((((b << 5) || (b >> 27)) + (e ^ (c && (d ^ e)))) + s09) + K0)) ;;
  c <~ ((c << 30) || (c >> 2)) ;;
  e <~ (e + (((((a << 5) || (a >> 27)) + (d ^ (b && (c ^ d)))) + s10) + K0)) ;;
  b <~ ((b << 30) || (b >> 2)) ;;
  d <~ (d + (((((e << 5) || (e >> 27)) + (c ^ (a && (b ^ c)))) + s11) + K0)) ;;
  a <~ ((a << 30) || (a >> 2)) ;;
  c <~ (c + (((((d << 5) || (d >> 27)) + (b ^ (e && (a ^ b)))) + s12) + K0)) ;;
  e <~ ((e << 30) || (e >> 2)) ;;
  b <~ (b + (((((c << 5) || (c >> 27)) + (a ^ (d && (e ^ a)))) + s13) + K0)) ;;
  d <~ ((d << 30) || (d >> 2)) ;;
  a <~ (a + (((((b << 5) || (b >> 27)) + (e ^ (c && (d ^ e)))) + s14) + K0)) ;;
  c <~ ((c << 30) || (c >> 2)) ;;
  e <~ (e + (((((a << 5) || (a >> 27)) + (d ^ (b && (c ^ d)))) + s15) + K0)) ;;
  b <~ ((b << 30) || (b >> 2)) ;;
  t <~ (((s13 ^ s08) ^ s02) ^ s00) ;;
  s00 <~ ((t << 1) || (t >> 31)) ;;
  d <~ (d + (((((e << 5) || (e >> 27)) + (c ^ (a && (b ^ c)))) + s00) + K0)) ;;
  a <~ ((a << 30) || (a >> 2)) ;;
  t <~ (((s14 ^ s09) ^ s03) ^ s01) ;;
  s01 <~ ((t << 1) || (t >> 31)) ;;
  c <~ (c + (((((d << 5) || (d >> 27)) + (b ^ (e && (a ^ b)))) + s01) + K0)) ;;
  e <~ ((e << 30) || (e >> 2)) ;;
  t <~ (((s15 ^ s10) ^ s04) ^ s02) ;;
  s02 <~ ((t << 1) || (t >> 31)) ;;
  b <~ (b + (((((c << 5) || (c >> 27)) + (a ^ (d && (e ^ a)))) + s02) + K0)) ;;
  d <~ ((d << 30) || (d >> 2)) ;;
  t <~ (((s00 ^ s11) ^ s05) ^ s03) ;;
  s03 <~ ((t << 1) || (t >> 31)) ;;
  a <~ (a + (((((b << 5) || (b >> 27)) + (e ^ (c && (d ^ e)))) + s03) + K0)) ;;
  c <~ ((c << 30) || (c >> 2)) ;;
  t <~ (((s01 ^ s12) ^ s06) ^ s04) ;;
  s04 <~ ((t << 1) || (t >> 31)) ;;
  e <~ (e + (((((a << 5) || (a >> 27)) + ((b ^ c) ^ d)) + s04) + K1)) ;;
  b <~ ((b << 30) || (b >> 2)) ;;
  t <~ (((s02 ^ s13) ^ s07) ^ s05) ;;
  s05 <~ ((t << 1) || (t >> 31)) ;;
  d <~ (d + (((((e << 5) || (e >> 27)) + ((a ^ b) ^ c)) + s05) + K1)) ;;
  a <~ ((a << 30) || (a >> 2)) ;;
  t <~ (((s03 ^ s14) ^ s08) ^ s06) ;;
  s06 <~ ((t << 1) || (t >> 31)) ;;
  c <~ (c + (((((d << 5) || (d >> 27)) + ((e ^ a) ^ b)) + s06) + K1)) ;;
  e <~ ((e << 30) || (e >> 2)) ;;
  t <~ (((s04 ^ s15) ^ s09) ^ s07) ;;
  s07 <~ ((t << 1) || (t >> 31)) ;;
  b <~ (b + (((((c << 5) || (c >> 27)) + ((d ^ e) ^ a)) + s07) + K1)) ;;
  d <~ ((d << 30) || (d >> 2)) ;;
  t <~ (((s05 ^ s00) ^ s10) ^ s08) ;;
  s08 <~ ((t << 1) || (t >> 31)) ;;
  a <~ (a + (((((b << 5) || (b >> 27)) + ((c ^ d) ^ e)) + s08) + K1)) ;;
  c <~ ((c << 30) || (c >> 2)) ;;
  t <~ (((s06 ^ s01) ^ s11) ^ s09) ;;
  s09 <~ ((t << 1) || (t >> 31)) ;;
  e <~ (e + (((((a << 5) || (a >> 27)) + ((b ^ c) ^ d)) + s09) + K1)) ;;
  b <~ ((b << 30) || (b >> 2)) ;;
  t <~ (((s07 ^ s02) ^ s12) ^ s10) ;;
  s10 <~ ((t << 1) || (t >> 31)) ;;
  d <~ (d + (((((e << 5) || (e >> 27)) + ((a ^ b) ^ c)) + s10) + K1)) ;;
  a <~ ((a << 30) || (a >> 2)) ;;
  t <~ (((s08 ^ s03) ^ s13) ^ s11) ;;
  s11 <~ ((t << 1) || (t >> 31)) ;;
  c <~ (c + (((((d << 5) || (d >> 27)) + ((e ^ a) ^ b)) + s11) + K1)) ;;
  e <~ ((e << 30) || (e >> 2)) ;;
  t <~ (((s09 ^ s04) ^ s14) ^ s12) ;;
  s12 <~ ((t << 1) || (t >> 31)) ;;
  b <~ (b + (((((c << 5) || (c >> 27)) + ((d ^ e) ^ a)) + s12) + K1)) ;;
  d <~ ((d << 30) || (d >> 2)) ;;
  t <~ (((s10 ^ s05) ^ s15) ^ s13) ;;
  s13 <~ ((t << 1) || (t >> 31)) ;;
  a <~ (a + (((((b << 5) || (b >> 27)) + ((c ^ d) ^ e)) + s13) + K1)) ;;
  c <~ ((c << 30) || (c >> 2)) ;;
  t <~ (((s11 ^ s06) ^ s00) ^ s14) ;;
  s14 <~ ((t << 1) || (t >> 31)) ;;
  e <~ (e + (((((a << 5) || (a >> 27)) + ((b ^ c) ^ d)) + s14) + K1)) ;;
  b <~ ((b << 30) || (b >> 2)) ;;
  t <~ (((s12 ^ s07) ^ s01) ^ s15) ;;
  s15 <~ ((t << 1) || (t >> 31)) ;;
  d <~ (d + (((((e << 5) || (e >> 27)) + ((a ^ b) ^ c)) + s15) + K1)) ;;
  a <~ ((a << 30) || (a >> 2)) ;;
  t <~ (((s13 ^ s08) ^ s02) ^ s00) ;;
  s00 <~ ((t << 1) || (t >> 31)) ;;
  c <~ (c + (((((d << 5) || (d >> 27)) + ((e ^ a) ^ b)) + s00) + K1)) ;;
  e <~ ((e << 30) || (e >> 2)) ;;
  t <~ (((s14 ^ s09) ^ s03) ^ s01) ;;
  s01 <~ ((t << 1) || (t >> 31)) ;;
  b <~ (b + (((((c << 5) || (c >> 27)) + ((d ^ e) ^ a)) + s01) + K1)) ;;
  d <~ ((d << 30) || (d >> 2)) ;;
  t <~ (((s15 ^ s10) ^ s04) ^ s02) ;;
  s02 <~ ((t << 1) || (t >> 31)) ;;
  a <~ (a + (((((b << 5) || (b >> 27)) + ((c ^ d) ^ e)) + s02) + K1)) ;;
  c <~ ((c << 30) || (c >> 2)) ;;
  t <~ (((s00 ^ s11) ^ s05) ^ s03) ;;
  s03 <~ ((t << 1) || (t >> 31)) ;;
  e <~ (e + (((((a << 5) || (a >> 27)) + ((b ^ c) ^ d)) + s03) + K1)) ;;
  b <~ ((b << 30) || (b >> 2)) ;;
  t <~ (((s01 ^ s12) ^ s06) ^ s04) ;;
  s04 <~ ((t << 1) || (t >> 31)) ;;
  d <~ (d + (((((e << 5) || (e >> 27)) + ((a ^ b) ^ c)) + s04) + K1)) ;;
  a <~ ((a << 30) || (a >> 2)) ;;
  t <~ (((s02 ^ s13) ^ s07) ^ s05) ;;
  s05 <~ ((t << 1) || (t >> 31)) ;;
  c <~ (c + (((((d << 5) || (d >> 27)) + ((e ^ a) ^ b)) + s05) + K1)) ;;
  e <~ ((e << 30) || (e >> 2)) ;;
  t <~ (((s03 ^ s14) ^ s08) ^ s06) ;;
  s06 <~ ((t << 1) || (t >> 31)) ;;
  b <~ (b + (((((c << 5) || (c >> 27)) + ((d ^ e) ^ a)) + s06) + K1)) ;;
  d <~ ((d << 30) || (d >> 2)) ;;
  t <~ (((s04 ^ s15) ^ s09) ^ s07) ;;
  s07 <~ ((t << 1) || (t >> 31)) ;;
  a <~ (a + (((((b << 5) || (b >> 27)) + ((c ^ d) ^ e)) + s07) + K1)) ;;
  c <~ ((c << 30) || (c >> 2)) ;;
  t <~ (((s05 ^ s00) ^ s10) ^ s08) ;;
  s08 <~ ((t << 1) || (t >> 31)) ;;
  e <~ (e + (((((a << 5) || (a >> 27)) + ((b && (c || d)) || (c && d))) + s08) + K2)) ;;
  b <~ ((b << 30) || (b >> 2)) ;;
  t <~ (((s06 ^ s01) ^ s11) ^ s09) ;;
  s09 <~ ((t << 1) || (t >> 31)) ;;
  d <~ (d + (((((e << 5) || (e >> 27)) + ((a && (b || c)) || (b && c))) + s09) + K2)) ;;
  a <~ ((a << 30) || (a >> 2)) ;;
  t <~ (((s07 ^ s02) ^ s12) ^ s10) ;;
  s10 <~ ((t << 1) || (t >> 31)) ;;
  c <~ (c + (((((d << 5) || (d >> 27)) + ((e && (a || b)) || (a && b))) + s10) + K2)) ;;
  e <~ ((e << 30) || (e >> 2)) ;;
  t <~ (((s08 ^ s03) ^ s13) ^ s11) ;;
  s11 <~ ((t << 1) || (t >> 31)) ;;
  b <~ (b + (((((c << 5) || (c >> 27)) + ((d && (e || a)) || (e && a))) + s11) + K2)) ;;
  d <~ ((d << 30) || (d >> 2)) ;;
  t <~ (((s09 ^ s04) ^ s14) ^ s12) ;;
  s12 <~ ((t << 1) || (t >> 31)) ;;
  a <~ (a + (((((b << 5) || (b >> 27)) + ((c && (d || e)) || (d && e))) + s12) + K2)) ;;
  c <~ ((c << 30) || (c >> 2)) ;;
  t <~ (((s10 ^ s05) ^ s15) ^ s13) ;;
  s13 <~ ((t << 1) || (t >> 31)) ;;
  e <~ (e + (((((a << 5) || (a >> 27)) + ((b && (c || d)) || (c && d))) + s13) + K2)) ;;
  b <~ ((b << 30) || (b >> 2)) ;;
  t <~ (((s11 ^ s06) ^ s00) ^ s14) ;;
  s14 <~ ((t << 1) || (t >> 31)) ;;
  d <~ (d + (((((e << 5) || (e >> 27)) + ((a && (b || c)) || (b && c))) + s14) + K2)) ;;
  a <~ ((a << 30) || (a >> 2)) ;;
  t <~ (((s12 ^ s07) ^ s01) ^ s15) ;;
  s15 <~ ((t << 1) || (t >> 31)) ;;
  c <~ (c + (((((d << 5) || (d >> 27)) + ((e && (a || b)) || (a && b))) + s15) + K2)) ;;
  e <~ ((e << 30) || (e >> 2)) ;;
  t <~ (((s13 ^ s08) ^ s02) ^ s00) ;;
  s00 <~ ((t << 1) || (t >> 31)) ;;
  b <~ (b + (((((c << 5) || (c >> 27)) + ((d && (e || a)) || (e && a))) + s00) + K2)) ;;
  d <~ ((d << 30) || (d >> 2)) ;;
  t <~ (((s14 ^ s09) ^ s03) ^ s01) ;;
  s01 <~ ((t << 1) || (t >> 31)) ;;
  a <~ (a + (((((b << 5) || (b >> 27)) + ((c && (d || e)) || (d && e))) + s01) + K2)) ;;
  c <~ ((c << 30) || (c >> 2)) ;;
  t <~ (((s15 ^ s10) ^ s04) ^ s02) ;;
  s02 <~ ((t << 1) || (t >> 31)) ;;
  e <~ (e + (((((a << 5) || (a >> 27)) + ((b && (c || d)) || (c && d))) + s02) + K2)) ;;
  b <~ ((b << 30) || (b >> 2)) ;;
  t <~ (((s00 ^ s11) ^ s05) ^ s03) ;;
  s03 <~ ((t << 1) || (t >> 31)) ;;
  d <~ (d + (((((e << 5) || (e >> 27)) + ((a && (b || c)) || (b && c))) + s03) + K2)) ;;
  a <~ ((a << 30) || (a >> 2)) ;;
  t <~ (((s01 ^ s12) ^ s06) ^ s04) ;;
  s04 <~ ((t << 1) || (t >> 31)) ;;
  c <~ (c + (((((d << 5) || (d >> 27)) + ((e && (a || b)) || (a && b))) + s04) + K2)) ;;
  e <~ ((e << 30) || (e >> 2)) ;;
  t <~ (((s02 ^ s13) ^ s07) ^ s05) ;;
  s05 <~ ((t << 1) || (t >> 31)) ;;
  b <~ (b + (((((c << 5) || (c >> 27)) + ((d && (e || a)) || (e && a))) + s05) + K2)) ;;
  d <~ ((d << 30) || (d >> 2)) ;;
  t <~ (((s03 ^ s14) ^ s08) ^ s06) ;;
  s06 <~ ((t << 1) || (t >> 31)) ;;
  a <~ (a + (((((b << 5) || (b >> 27)) + ((c && (d || e)) || (d && e))) + s06) + K2)) ;;
  c <~ ((c << 30) || (c >> 2)) ;;
  t <~ (((s04 ^ s15) ^ s09) ^ s07) ;;
  s07 <~ ((t << 1) || (t >> 31)) ;;
  e <~ (e + (((((a << 5) || (a >> 27)) + ((b && (c || d)) || (c && d))) + s07) + K2)) ;;
  b <~ ((b << 30) || (b >> 2)) ;;
  t <~ (((s05 ^ s00) ^ s10) ^ s08) ;;
  s08 <~ ((t << 1) || (t >> 31)) ;;
  d <~ (d + (((((e << 5) || (e >> 27)) + ((a && (b || c)) || (b && c))) + s08) + K2)) ;;
  a <~ ((a << 30) || (a >> 2)) ;;
  t <~ (((s06 ^ s01) ^ s11) ^ s09) ;;
  s09 <~ ((t << 1) || (t >> 31)) ;;
  c <~ (c + (((((d << 5) || (d >> 27)) + ((e && (a || b)) || (a && b))) + s09) + K2)) ;;
  e <~ ((e << 30) || (e >> 2)) ;;
  t <~ (((s07 ^ s02) ^ s12) ^ s10) ;;
  s10 <~ ((t << 1) || (t >> 31)) ;;
  b <~ (b + (((((c << 5) || (c >> 27)) + ((d && (e || a)) || (e && a))) + s10) + K2)) ;;
  d <~ ((d << 30) || (d >> 2)) ;;
  t <~ (((s08 ^ s03) ^ s13) ^ s11) ;;
  s11 <~ ((t << 1) || (t >> 31)) ;;
  a <~ (a + (((((b << 5) || (b >> 27)) + ((c && (d || e)) || (d && e))) + s11) + K2)) ;;
  c <~ ((c << 30) || (c >> 2)) ;;
  t <~ (((s09 ^ s04) ^ s14) ^ s12) ;;
  s12 <~ ((t << 1) || (t >> 31)) ;;
  e <~ (e + (((((a << 5) || (a >> 27)) + ((b ^ c) ^ d)) + s12) + K3)) ;;
  b <~ ((b << 30) || (b >> 2)) ;;
  t <~ (((s10 ^ s05) ^ s15) ^ s13) ;;
  s13 <~ ((t << 1) || (t >> 31)) ;;
  d <~ (d + (((((e << 5) || (e >> 27)) + ((a ^ b) ^ c)) + s13) + K3)) ;;
  a <~ ((a << 30) || (a >> 2)) ;;
  t <~ (((s11 ^ s06) ^ s00) ^ s14) ;;
  s14 <~ ((t << 1) || (t >> 31)) ;;
  c <~ (c + (((((d << 5) || (d >> 27)) + ((e ^ a) ^ b)) + s14) + K3)) ;;
  e <~ ((e << 30) || (e >> 2)) ;;
  t <~ (((s12 ^ s07) ^ s01) ^ s15) ;;
  s15 <~ ((t << 1) || (t >> 31)) ;;
  b <~ (b + (((((c << 5) || (c >> 27)) + ((d ^ e) ^ a)) + s15) + K3)) ;;
  d <~ ((d << 30) || (d >> 2)) ;;
  t <~ (((s13 ^ s08) ^ s02) ^ s00) ;;
  s00 <~ ((t << 1) || (t >> 31)) ;;
  a <~ (a + (((((b << 5) || (b >> 27)) + ((c ^ d) ^ e)) + s00) + K3)) ;;
  c <~ ((c << 30) || (c >> 2)) ;;
  t <~ (((s14 ^ s09) ^ s03) ^ s01) ;;
  s01 <~ ((t << 1) || (t >> 31)) ;;
  e <~ (e + (((((a << 5) || (a >> 27)) + ((b ^ c) ^ d)) + s01) + K3)) ;;
  b <~ ((b << 30) || (b >> 2)) ;;
  t <~ (((s15 ^ s10) ^ s04) ^ s02) ;;
  s02 <~ ((t << 1) || (t >> 31)) ;;
  d <~ (d + (((((e << 5) || (e >> 27)) + ((a ^ b) ^ c)) + s02) + K3)) ;;
  a <~ ((a << 30) || (a >> 2)) ;;
  t <~ (((s00 ^ s11) ^ s05) ^ s03) ;;
  s03 <~ ((t << 1) || (t >> 31)) ;;
  c <~ (c + (((((d << 5) || (d >> 27)) + ((e ^ a) ^ b)) + s03) + K3)) ;;
  e <~ ((e << 30) || (e >> 2)) ;;
  t <~ (((s01 ^ s12) ^ s06) ^ s04) ;;
  s04 <~ ((t << 1) || (t >> 31)) ;;
  b <~ (b + (((((c << 5) || (c >> 27)) + ((d ^ e) ^ a)) + s04) + K3)) ;;
  d <~ ((d << 30) || (d >> 2)) ;;
  t <~ (((s02 ^ s13) ^ s07) ^ s05) ;;
  s05 <~ ((t << 1) || (t >> 31)) ;;
  a <~ (a + (((((b << 5) || (b >> 27)) + ((c ^ d) ^ e)) + s05) + K3)) ;;
  c <~ ((c << 30) || (c >> 2)) ;;
  t <~ (((s03 ^ s14) ^ s08) ^ s06) ;;
  s06 <~ ((t << 1) || (t >> 31)) ;;
  e <~ (e + (((((a << 5) || (a >> 27)) + ((b ^ c) ^ d)) + s06) + K3)) ;;
  b <~ ((b << 30) || (b >> 2)) ;;
  t <~ (((s04 ^ s15) ^ s09) ^ s07) ;;
  s07 <~ ((t << 1) || (t >> 31)) ;;
  d <~ (d + (((((e << 5) || (e >> 27)) + ((a ^ b) ^ c)) + s07) + K3)) ;;
  a <~ ((a << 30) || (a >> 2)) ;;
  t <~ (((s05 ^ s00) ^ s10) ^ s08) ;;
  s08 <~ ((t << 1) || (t >> 31)) ;;
  c <~ (c + (((((d << 5) || (d >> 27)) + ((e ^ a) ^ b)) + s08) + K3)) ;;
  e <~ ((e << 30) || (e >> 2)) ;;
  t <~ (((s06 ^ s01) ^ s11) ^ s09) ;;
  s09 <~ ((t << 1) || (t >> 31)) ;;
  b <~ (b + (((((c << 5) || (c >> 27)) + ((d ^ e) ^ a)) + s09) + K3)) ;;
  d <~ ((d << 30) || (d >> 2)) ;;
  t <~ (((s07 ^ s02) ^ s12) ^ s10) ;;
  s10 <~ ((t << 1) || (t >> 31)) ;;
  a <~ (a + (((((b << 5) || (b >> 27)) + ((c ^ d) ^ e)) + s10) + K3)) ;;
  c <~ ((c << 30) || (c >> 2)) ;;
  t <~ (((s08 ^ s03) ^ s13) ^ s11) ;;
  s11 <~ ((t << 1) || (t >> 31)) ;;
  e <~ (e + (((((a << 5) || (a >> 27)) + ((b ^ c) ^ d)) + s11) + K3)) ;;
  b <~ ((b << 30) || (b >> 2)) ;;
  t <~ (((s09 ^ s04) ^ s14) ^ s12) ;;
  s12 <~ ((t << 1) || (t >> 31)) ;;
  d <~ (d + (((((e << 5) || (e >> 27)) + ((a ^ b) ^ c)) + s12) + K3)) ;;
  a <~ ((a << 30) || (a >> 2)) ;;
  t <~ (((s10 ^ s05) ^ s15) ^ s13) ;;
  s13 <~ ((t << 1) || (t >> 31)) ;;
  c <~ (c + (((((d << 5) || (d >> 27)) + ((e ^ a) ^ b)) + s13) + K3)) ;;
  e <~ ((e << 30) || (e >> 2)) ;;
  t <~ (((s11 ^ s06) ^ s00) ^ s14) ;;
  s14 <~ ((t << 1) || (t >> 31)) ;;
  b <~ (b + (((((c << 5) || (c >> 27)) + ((d ^ e) ^ a)) + s14) + K3)) ;;
  d <~ ((d << 30) || (d >> 2)) ;;
  t <~ (((s12 ^ s07) ^ s01) ^ s15) ;;
  s15 <~ ((t << 1) || (t >> 31)) ;;
  a <~ (a + (((((b << 5) || (b >> 27)) + ((c ^ d) ^ e)) + s15) + K3)) ;;
  c <~ ((c << 30) || (c >> 2)) ;;
  (xa + a, xb + b, xc + c, xd + d, xe + e))%w32.

(* step, lib/crypto/sha256.myr:212-436, statement by statement.  The array or struct is a tuple. *)
Definition step_sha256 (st : N * N * N * N * N * N * N * N) (blk : list N) : N * N * N * N * N * N * N * N :=
  let '(a, b, c, d, e, f, g, h) := st in
  let '(xa, xb, xc, xd, xe, xf, xg, xh) := st in (
  s00 <~ unpack_sha256 (slice blk 0 4) ;;
  s01 <~ unpack_sha256 (slice blk 4 8) ;;
  s02 <~ unpack_sha256 (slice blk 8 12) ;;
  s03 <~ unpack_sha256 (slice blk 12 16) ;;
  s04 <~ unpack_sha256 (slice blk 16 20) ;;
  s05 <~ unpack_sha256 (slice blk 20 24) ;;
  s06 <~ unpack_sha256 (slice blk 24 28) ;;
  s07 <~ unpack_sha256 (slice blk 28 32) ;;
  s08 <~ unpack_sha256 (slice blk 32 36) ;;
  s09 <~ unpack_sha256 (slice blk 36 40) ;;
  s10 <~ unpack_sha256 (slice blk 40 44) ;;
  s11 <~ unpack_sha256 (slice blk 44 48) ;;
  s12 <~ unpack_sha256 (slice blk 48 52) ;;
  s13 <~ unpack_sha256 (slice blk 52 56) ;;
  s14 <~ unpack_sha256 (slice blk 56 60) ;;
  s15 <~ unpack_sha256 (slice blk 60 64) ;;
  s16 <~ (((s00 + s09) + ((((s01 << 25) || (s01 >> 7)) ^ ((s01 << 14) || (s01 >> 18))) ^ (s01 >> 3))) + ((((s14 << 15) || (s14 >> 17)) ^ ((s14 << 13) || (s14 >> 19))) ^ (s14 >> 10))) ;;
  s17 <~ (((s01 + s10) + ((((s02 << 25) || (s02 >> 7)) ^ ((s02 << 14) || (s02 >> 18))) ^ (s02 >> 3))) + ((((s15 << 15) || (s15 >> 17)) ^ ((s15 << 13) || (s15 >> 19))) ^ (s15 >> 10))) ;;
  s18 <~ (((s02 + s11) + ((((s03 << 25) || (s03 >> 7)) ^ ((s03 << 14) || (s03 >> 18))) ^ (s03 >> 3))) + ((((s16 << 15) || (s16 >> 17)) ^ ((s16 << 13) || (s16 >> 19))) ^ (s16 >> 10))) ;;
  s19 <~ (((s03 + s12) + ((((s04 << 25) || (s04 >> 7)) ^ ((s04 << 14) || (s04 >> 18))) ^ (s04 >> 3))) + ((((s17 << 15) || (s17 >> 17)) ^ ((s17 << 13) || (s17 >> 19))) ^ (s17 >> 10))) ;;
  s20 <~ (((s04 + s13) + ((((s05 << 25) || (s05 >> 7)) ^ ((s05 << 14) || (s05 >> 18))) ^ (s05 >> 3))) + ((((s18 << 15) || (s18 >> 17)) ^ ((s18 << 13) || (s18 >> 19))) ^ (s18 >> 10))) ;;
  s21 <~ (((s05 + s14) + ((((s06 << 25) || (s06 >> 7)) ^ ((s06 << 14) || (s06 >> 18))) ^ (s06 >> 3))) + ((((s19 << 15) || (s19 >> 17)) ^ ((s19 << 13) || (s19 >> 19))) ^ (s19 >> 10))) ;;
  s22 <~ (((s06 + s15) + ((((s07 << 25) || (s07 >> 7)) ^ ((s07 << 14) || (s07 >> 18))) ^ (s07 >> 3))) + ((((s20 << 15) || (s20 >> 17)) ^ ((s20 << 13) || (s20 >> 19))) ^ (s20 >> 10))) ;;
  s23 <~ (((s07 + s16) + ((((s08 << 25) || (s08 >> 7)) ^ ((s08 << 14) || (s08 >> 18))) ^ (s08 >> 3))) + ((((s21 << 15) || (s21 >> 17)) ^ ((s21 << 13) || (s21 >> 19))) ^ (s21 >> 10))) ;;
  s24 <~ (((s08 + s17) + ((((s09 << 25) || (s09 >> 7)) ^ ((s09 << 14) || (s09 >> 18))) ^ (s09 >> 3))) + ((((s22 << 15) || (s22 >> 17)) ^ ((s22 << 13) || (s22 >> 19))) ^ (s22 >> 10))) ;;
  s25 <~ (((s09 + s18) + ((((s10 << 25) || (s10 >> 7)) ^ ((s10 << 14) || (s10 >> 18))) ^ (s10 >> 3))) + ((((s23 << 15) || (s23 >> 17)) ^ ((s23 << 13) || (s23 >> 19))) ^ (s23 >> 10))) ;;
  s26 <~ (((s10 + s19) + ((((s11 << 25) || (s11 >> 7)) ^ ((s11 << 14) || (s11 >> 18))) ^ (s11 >> 3))) + ((((s24 << 15) || (s24 >> 17)) ^ ((s24 << 13) || (s24 >> 19))) ^ (s24 >> 10))) ;;
  s27 <~ (((s11 + s20) + ((((s12 << 25) || (s12 >> 7)) ^ ((s12 << 14) || (s12 >> 18))) ^ (s12 >> 3))) + ((((s25 << 15) || (s25 >> 17)) ^ ((s25 << 13) || (s25 >> 19))) ^ (s25 >> 10))) ;;
  s28 <~ (((s12 + s21) + ((((s13 << 25) || (s13 >> 7)) ^ ((s13 << 14) || (s13 >> 18))) ^ (s13 >> 3))) + ((((s26 << 15) || (s26 >> 17)) ^ ((s26 << 13) || (s26 >> 19))) ^ (s26 >> 10))) ;;
  s29 <~ (((s13 + s22) + ((((s14 << 25) || (s14 >> 7)) ^ ((s14 << 14) || (s14 >> 18))) ^ (s14 >> 3))) + ((((s27 << 15) || (s27 >> 17)) ^ ((s27 << 13) || (s27 >> 19))) ^ (s27 >> 10))) ;;
  s30 <~ (((s14 + s23) + ((((s15 << 25) || (s15 >> 7)) ^ ((s15 << 14) || (s15 >> 18))) ^ (s15 >> 3))) + ((((s28 << 15) || (s28 >> 17)) ^ ((s28 << 13) || (s28 >> 19))) ^ (s28 >> 10))) ;;
  s31 <~ (((s15 + s24) + ((((s16 << 25) || (s16 >> 7)) ^ ((s16 << 14) || (s16 >> 18))) ^ (s16 >> 3))) + ((((s29 << 15) || (s29 >> 17)) ^ ((s29 << 13) || (s29 >> 19))) ^ (s29 >> 10))) ;;
  s32 <~ (((s16 + s25) + ((((s17 << 25) || (s17 >> 7)) ^ ((s17 << 14) || (s17 >> 18))) ^ (s17 >> 3))) + ((((s30 << 15) || (s30 >> 17)) ^ ((s30 << 13) || (s30 >> 19))) ^ (s30 >> 10))) ;;
  s33 <~ (((s17 + s26) + ((((s18 << 25) || (s18 >> 7)) ^ ((s18 << 14) || (s18 >> 18))) ^ (s18 >> 3))) + ((((s31 << 15) || (s31 >> 17)) ^ ((s31 << 13) || (s31 >> 19))) ^ (s31 >> 10))) ;;
  s34 <~ (((s18 + s27) + ((((s19 << 25) || (s19 >> 7)) ^ ((s19 << 14) || (s19 >> 18))) ^ (s19 >> 3))) + ((((s32 << 15) || (s32 >> 17)) ^ ((s32 << 13) || (s32 >> 19))) ^ (s32 >> 10))) ;;
  s35 <~ (((s19 + s28) + ((((s20 << 25) || (s20 >> 7)) ^ ((s20 << 14) || (s20 >> 18))) ^ (s20 >> 3))) + ((((s33 << 15) || (s33 >> 17)) ^ ((s33 << 13) || (s33 >> 19))) ^ (s33 >> 10))) ;;
  s36 <~ (((s20 + s29) + ((((s21 << 25) || (s21 >> 7)) ^ ((s21 << 14) || (s21 >> 18))) ^ (s21 >> 3))) + ((((s34 << 15) || (s34 >> 17)) ^ ((s34 << 13) || (s34 >> 19))) ^ (s34 >> 10))) ;;
  s37 <~ (((s21 + s30) + ((((s22 << 25) || (s22 >> 7)) ^ ((s22 << 14) || (s22 >> 18))) ^ (s22 >> 3))) + ((((s35 << 15) || (s35 >> 17)) ^ ((s35 << 13) || (s35 >> 19))) ^ (s35 >> 10))) ;;
  s38 <~ (((s22 + s31) + ((((s23 << 25) || (s23 >> 7)) ^ ((s23 << 14) || (s23 >> 18))) ^ (s23 >> 3))) + ((((s36 << 15) || (s36 >> 17)) ^ ((s36 << 13) || (s36 >> 19))) ^ (s36 >> 10))) ;;
  s39 <~ (((s23 + s32) + ((((s24 << 25) || (s24 >> 7)) ^ ((s24 << 14) || (s24 >> 18))) ^ (s24 >> 3))) + ((((s37 << 15) || (s37 >> 17)) ^ ((s37 << 13) || (s37 >> 19))) ^ (s37 >> 10))) ;;
  s40 <~ (((s24 + s33) + ((((s25 << 25) || (s25 >> 7)) ^ ((s25 << 14) || (s25 >> 18))) ^ (s25 >> 3))) + ((((s38 << 15) || (s38 >> 17)) ^ ((s38 << 13) || (s38 >> 19))) ^ (s38 >> 10))) ;;
  s41 <~ (((s25 + s34) + ((((s26 << 25) || (s26 >> 7)) ^ ((s26 << 14) || (s26 >> 18))) ^ (s26 >> 3))) + ((((s39 << 15) || (s39 >> 17)) ^ ((s39 << 13) || (s39 >> 19))) ^ (s39 >> 10))) ;;
  s42 <~ (((s26 + s35) + ((((s27 << 25) || (s27 >> 7)) ^ ((s27 << 14) || (s27 >> 18))) ^ (s27 >> 3))) + ((((s40 << 15) || (s40 >> 17)) ^ ((s40 << 13) || (s40 >> 19))) ^ (s40 >> 10))) ;;
  s43 <~ (((s27 + s36) + ((((s28 << 25) || (s28 >> 7)) ^ ((s28 << 14) || (s28 >> 18))) ^ (s28 >> 3))) + ((((s41 << 15) || (s41 >> 17)) ^ ((s41 << 13) || (s41 >> 19))) ^ (s41 >> 10))) ;;
  s44 <~ (((s28 + s37) + ((((s29 << 25) || (s29 >> 7)) ^ ((s29 << 14) || (s29 >> 18))) ^ (s29 >> 3))) + ((((s42 << 15) || (s42 >> 17)) ^ ((s42 << 13) || (s42 >> 19))) ^ (s42 >> 10))) ;;
  s45 <~ (((s29 + s38) + ((((s30 << 25) || (s30 >> 7)) ^ ((s30 << 14) || (s30 >> 18))) ^ (s30 >> 3))) + ((((s43 << 15) || (s43 >> 17)) ^ ((s43 << 13) || (s43 >> 19))) ^ (s43 >> 10))) ;;
  s46 <~ (((s30 + s39) + ((((s31 << 25) || (s31 >> 7)) ^ ((s31 << 14) || (s31 >> 18))) ^ (s31 >> 3))) + ((((s44 << 15) || (s44 >> 17)) ^ ((s44 << 13) || (s44 >> 19))) ^ (s44 >> 10))) ;;
  s47 <~ (((s31 + s40) + ((((s32 << 25) || (s32 >> 7)) ^ ((s32 << 14) || (s32 >> 18))) ^ (s32 >> 3))) + ((((s45 << 15) || (s45 >> 17)) ^ ((s45 << 13) || (s45 >> 19))) ^ (s45 >> 10))) ;;
  s48 <~ (((s32 + s41) + ((((s33 << 25) || (s33 >> 7)) ^ ((s33 << 14) || (s33 >> 18))) ^ (s33 >> 3))) + ((((s46 << 15) || (s46 >> 17)) ^ ((s46 << 13) || (s46 >> 19))) ^ (s46 >> 10))) ;;
  s49 <~ (((s33 + s42) + ((((s34 << 25) || (s34 >> 7)) ^ ((s34 << 14) || (s34 >> 18))) ^ (s34 >> 3))) + ((((s47 << 15) || (s47 >> 17)) ^ ((s47 << 13) || (s47 >> 19))) ^ (s47 >> 10))) ;;
  s50 <~ (((s34 + s43) + ((((s35 << 25) || (s35 >> 7)) ^ ((s35 << 14) || (s35 >> 18))) ^ (s35 >> 3))) + ((((s48 << 15) || (s48 >> 17)) ^ ((s48 << 13) || (s48 >> 19))) ^ (s48 >> 10))) ;;
  s51 <~ (((s35 + s44) + ((((s36 << 25) || (s36 >> 7)) ^ ((s36 << 14) || (s36 >> 18))) ^ (s36 >> 3))) + ((((s49 << 15) || (s49 >> 17)) ^ ((s49 << 13) || (s49 >> 19))) ^ (s49 >> 10))) ;;
  s52 <~ (((s36 + s45) + ((((s37 << 25) || (s37 >> 7)) ^ ((s37 << 14) || (s37 >> 18))) ^ (s37 >> 3))) + ((((s50 << 15) || (s50 >> 17)) ^ ((s50 << 13) || (s50 >> 19))) ^ (s50 >> 10))) ;;
  s53 <~ (((s37 + s46) + ((((s38 << 25) || (s38 >> 7)) ^ ((s38 << 14) || (s38 >> 18))) ^ (s38 >> 3))) + ((((s51 << 15) || (s51 >> 17)) ^ ((s51 << 13) || (s51 >> 19))) ^ (s51 >> 10))) ;;
  s54 <~ (((s38 + s47) + ((((s39 << 25) || (s39 >> 7)) ^ ((s39 << 14) || (s39 >> 18))) ^ (s39 >> 3))) + ((((s52 << 15) || (s52 >> 17)) ^ ((s52 << 13) || (s52 >> 19))) ^ (s52 >> 10))) ;;
  s55 <~ (((s39 + s48) + ((((s40 << 25) || (s40 >> 7)) ^ ((s40 << 14) || (s40 >> 18))) ^ (s40 >> 3))) + ((((s53 << 15) || (s53 >> 17)) ^ ((s53 << 13) || (s53 >> 19))) ^ (s53 >> 10))) ;;
  s56 <~ (((s40 + s49) + ((((s41 << 25) || (s41 >> 7)) ^ ((s41 << 14) || (s41 >> 18))) ^ (s41 >> 3))) + ((((s54 << 15) || (s54 >> 17)) ^ ((s54 << 13) || (s54 >> 19))) ^ (s54 >> 10))) ;;
  s57 <~ (((s41 + s50) + ((((s42 << 25) || (s42 >> 7)) ^ ((s42 << 14) || (s42 >> 18))) ^ (s42 >> 3))) + ((((s55 << 15) || (s55 >> 17)) ^ ((s55 << 13) || (s55 >> 19))) ^ (s55 >> 10))) ;;
  s58 <~ (((s42 + s51) + ((((s43 << 25) || (s43 >> 7)) ^ ((s43 << 14) || (s43 >> 18))) ^ (s43 >> 3))) + ((((s56 << 15) || (s56 >> 17)) ^ ((s56 << 13) || (s56 >> 19))) ^ (s56 >> 10))) ;;
  s59 <~ (((s43 + s52) + ((((s44 << 25) || (s44 >> 7)) ^ ((s44 << 14) || (s44 >> 18))) ^ (s44 >> 3))) + ((((s57 << 15) || (s57 >> 17)) ^ ((s57 << 13) || (s57 >> 19))) ^ (s57 >> 10))) ;;
  s60 <~ (((s44 + s53) + ((((s45 << 25) || (s45 >> 7)) ^ ((s45 << 14) || (s45 >> 18))) ^ (s45 >> 3))) + ((((s58 << 15) || (s58 >> 17)) ^ ((s58 << 13) || (s58 >> 19))) ^ (s58 >> 10))) ;;
  s61 <~ (((s45 + s54) + ((((s46 << 25) || (s46 >> 7)) ^ ((s46 << 14) || (s46 >> 18))) ^ (s46 >> 3))) + ((((s59 << 15) || (s59 >> 17)) ^ ((s59 << 13) || (s59 >> 19))) ^ (s59 >> 10))) ;;
  s62 <~ (((s46 + s55) + ((((s47 << 25) || (s47 >> 7)) ^ ((s47 << 14) || (s47 >> 18))) ^ (s47 >> 3))) + ((((s60 << 15) || (s60 >> 17)) ^ ((s60 << 13) || (s60 >> 19))) ^ (s60 >> 10))) ;;
  s63 <~ (((s47 + s56) + ((((s48 << 25) || (s48 >> 7)) ^ ((s48 << 14) || (s48 >> 18))) ^ (s48 >> 3))) + ((((s61 << 15) || (s61 >> 17)) ^ ((s61 << 13) || (s61 >> 19))) ^ (s61 >> 10))) ;;
  h <~ (h + (((((((e << 26) || (e >> 6)) ^ ((e << 21) || (e >> 11))) ^ ((e << 7) || (e >> 25))) + (g ^ (e && (f ^ g)))) + 0x428a2f98) + s00)) ;;
  d <~ (d + h) ;;
  h <~ (h + (((((a << 30) || (a >> 2)) ^ ((a << 19) || (a >> 13))) ^ ((a << 10) || (a >> 22))) + ((a && (b || c)) || (b && c)))) ;;
  g <~ (g + (((((((d << 26) || (d >> 6)) ^ ((d << 21) || (d >> 11))) ^ ((d << 7) || (d >> 25))) + (f ^ (d && (e ^ f)))) + 0x71374491) + s01)) ;;
  c <~ (c + g) ;;
  g <~ (g + (((((h << 30) || (h >> 2)) ^ ((h << 19) || (h >> 13))) ^ ((h << 10) || (h >> 22))) + ((h && (a || b)) || (a && b)))) ;;
  f <~ (f + (((((((c << 26) || (c >> 6)) ^ ((c << 21) || (c >> 11))) ^ ((c << 7) || (c >> 25))) + (e ^ (c && (d ^ e)))) + 0xb5c0fbcf) + s02)) ;;
  b <~ (b + f) ;;
  f <~ (f + (((((g << 30) || (g >> 2)) ^ ((g << 19) || (g >> 13))) ^ ((g << 10) || (g >> 22))) + ((g && (h || a)) || (h && a)))) ;;
  e <~ (e + (((((((b << 26) || (b >> 6)) ^ ((b << 21) || (b >> 11))) ^ ((b << 7) || (b >> 25))) + (d ^ (b && (c ^ d)))) + 0xe9b5dba5) + s03)) ;;
  a <~ (a + e) ;;
  e <~ (e + (((((f << 30) || (f >> 2)) ^ ((f << 19) || (f >> 13))) ^ ((f << 10) || (f >> 22))) + ((f && (g || h)) || (g && h)))) ;;
  d <~ (d + (((((((a << 26) || (a >> 6)) ^ ((a << 21) || (a >> 11))) ^ ((a << 7) || (a >> 25))) + (c ^ (a && (b ^ c)))) + 0x3956c25b) + s04)) ;;
  h <~ (h + d) ;;
  d <~ (d + (((((e << 30) || (e >> 2)) ^ ((e << 19) || (e >> 13))) ^ ((e << 10) || (e >> 22))) + ((e && (f || g)) || (f && g)))) ;;
  c <~ (c + (((((((h << 26) || (h >> 6)) ^ ((h << 21) || (h >> 11))) ^ ((h << 7) || (h >> 25))) + (b ^ (h && (a ^ b)))) + 0x59f111f1) + s05)) ;;
  g <~ (g + c) ;;
  c <~ (c + (((((d << 30) || (d >> 2)) ^ ((d << 19) || (d >> 13))) ^ ((d << 10) || (d >> 22))) + ((d && (e || f)) || (e && f)))) ;;
  b <~ (b + (((((((g << 26) || (g >> 6)) ^ ((g << 21) || (g >> 11))) ^ ((g << 7) || (g >> 25))) + (a ^ (g && (h ^ a)))) + 0x923f82a4) + s06)) ;;
  f <~ (f + b) ;;
  b <~ (b + (((((c << 30) || (c >> 2)) ^ ((c << 19) || (c >> 13))) ^ ((c << 10) || (c >> 22))) + ((c && (d || e)) || (d && e)))) ;;
  a <~ (a + (((((((f << 26) || (f >> 6)) ^ ((f << 21) || (f >> 11))) ^ ((f << 7) || (f >> 25))) + (h ^ (f && (g ^ h)))) + 0xab1c5ed5) + s07)) ;;
  e <~ (e + a) ;;
  a <~ (a + (((((b << 30) || (b >> 2)) ^ ((b << 19) || (b >> 13))) ^ ((b << 10) || (b >> 22))) + ((b && (c || d)) || (c && d)))) ;;
  h <~ (h + (((((((e << 26) || (e >> 6)) ^ ((e << 21) || (e >> 11))) ^ ((e << 7) || (e >> 25))) + (g ^ (e && (f ^ g)))) + 0xd807aa98) + s08)) ;;
  d <~ (d + h) ;;
  h <~ (h + (((((a << 30) || (a >> 2)) ^ ((a << 19) || (a >> 13))) ^ ((a << 10) || (a >> 22))) + ((a && (b || c)) || (b && c)))) ;;
  g <~ (g + (((((((d << 26) || (d >> 6)) ^ ((d << 21) || (d >> 11))) ^ ((d << 7) || (d >> 25))) + (f ^ (d && (e ^ f)))) + 0x12835b01) + s09)) ;;
  c <~ (c + g) ;;
  g <~ (g + (((((h << 30) || (h >> 2)) ^ ((h << 19) || (h >> 13))) ^ ((h << 10) || (h >> 22))) + ((h && (a || b)) || (a && b)))) ;;
  f <~ (f + (((((((c << 26) || (c >> 6)) ^ ((c << 21) || (c >> 11))) ^ ((c << 7) || (c >> 25))) + (e ^ (c && (d ^ e)))) + 0x243185be) + s10)) ;;
  b <~ (b + f) ;;
  f <~ (f + (((((g << 30) || (g >> 2)) ^ ((g << 19) || (g >> 13))) ^ ((g << 10) || (g >> 22))) + ((g && (h || a)) || (h && a)))) ;;
  e <~ (e + (((((((b << 26) || (b >> 6)) ^ ((b << 21) || (b >> 11))) ^ ((b << 7) || (b >> 25))) + (d ^ (b && (c ^ d)))) + 0x550c7dc3) + s11)) ;;
  a <~ (a + e) ;;
  e <~ (e + (((((f << 30) || (f >> 2)) ^ ((f << 19) || (f >> 13))) ^ ((f << 10) || (f >> 22))) + ((f && (g || h)) || (g && h)))) ;;
  d <~ (d + (((((((a << 26) || (a >> 6)) ^ ((a << 21) || (a >> 11))) ^ ((a << 7) || (a >> 25))) + (c ^ (a && (b ^ c)))) + 0x72be5d74) + s12)) ;;
  h <~ (h + d) ;;
  d <~ (d + (((((e << 30) || (e >> 2)) ^ ((e << 19) || (e >> 13))) ^ ((e << 10) || (e >> 22))) + ((e && (f || g)) || (f && g)))) ;;
  c <~ (c + (((((((h << 26) || (h >> 6)) ^ ((h << 21) || (h >> 11))) ^ ((h << 7) || (h >> 25))) + (b ^ (h && (a ^ b)))) + 0x80deb1fe) + s13)) ;;
  g <~ (g + c) ;;
  c <~ (c + (((((d << 30) || (d >> 2)) ^ ((d << 19) || (d >> 13))) ^ ((d << 10) || (d >> 22))) + ((d && (e || f)) || (e && f)))) ;;
  b <~ (b + (((((((g << 26) || (g >> 6)) ^ ((g << 21) || (g >> 11))) ^ ((g << 7) || (g >> 25))) + (a ^ (g && (h ^ a)))) + 0x9bdc06a7) + s14)) ;;
  f <~ (f + b) ;;
  b <~ (b + (((((c << 30) || (c >> 2)) ^ ((c << 19) || (c >> 13))) ^ ((c << 10) || (c >> 22))) + ((c && (d || e)) || (d && e)))) ;;
  a <~ (a + (((((((f << 26) || (f >> 6)) ^ ((f << 21) || (f >> 11))) ^ ((f << 7) || (f >> 25))) + (h ^ (f && (g ^ h)))) + 0xc19bf174) + s15)) ;;
  e <~ (e + a) ;;
  a <~ (a + (((((b << 30) || (b >> 2)) ^ ((b << 19) || (b >> 13))) ^ ((b << 10) || (b >> 22))) + ((b && (c || d)) || (c && d)))) ;;
  h <~ (h + (((((((e << 26) || (e >> 6)) ^ ((e << 21) || (e >> 11))) ^ ((e << 7) || (e >> 25))) + (g ^ (e && (f ^ g)))) + 0xe49b69c1) + s16)) ;;
  d <~ (d + h) ;;
  h <~ (h + (((((a << 30) || (a >> 2)) ^ ((a << 19) || (a >> 13))) ^ ((a << 10) || (a >> 22))) + ((a && (b || c)) || (b && c)))) ;;
  g <~ (g + (((((((d << 26) || (d >> 6)) ^ ((d << 21) || (d >> 11))) ^ ((d << 7) || (d >> 25))) + (f ^ (d && (e ^ f)))) + 0xefbe4786) + s17)) ;;
  c <~ (c + g) ;;
  g <~ (g + (((((h << 30) || (h >> 2)) ^ ((h << 19) || (h >> 13))) ^ ((h << 10) || (h >> 22))) + ((h && (a || b)) || (a && b)))) ;;
  f <~ (f + (((((((c << 26) || (c >> 6)) ^ ((c << 21) || (c >> 11))) ^ ((c << 7) || (c >> 25))) + (e ^ (c && (d ^ e)))) + 0x0fc19dc6) + s18)) ;;
  b <~ (b + f) ;;
  f <~ (f + (((((g << 30) || (g >> 2)) ^ ((g << 19) || (g >> 13))) ^ ((g << 10) || (g >> 22))) + ((g && (h || a)) || (h && a)))) ;;
  e <~ (e + (((((((b << 26) || (b >> 6)) ^ ((b << 21) || (b >> 11))) ^ ((b << 7) || (b >> 25))) + (d ^ (b && (c ^ d)))) + 0x240ca1cc) + s19)) ;;
  a <~ (a + e) ;;
  e <~ (e + (((((f << 30) || (f >> 2)) ^ ((f << 19) || (f >> 13))) ^ ((f << 10) || (f >> 22))) + ((f && (g || h)) || (g && h)))) ;;
  d <~ (d + (((((((a << 26) || (a >> 6)) ^ ((a << 21) || (a >> 11))) ^ ((a << 7) || (a >> 25))) + (c ^ (a && (b ^ c)))) + 0x2de92c6f) + s20)) ;;
  h <~ (h + d) ;;
  d <~ (d + (((((e << 30) || (e >> 2)) ^ ((e << 19) || (e >> 13))) ^ ((e << 10) || (e >> 22))) + ((e && (f || g)) || (f && g)))) ;;
  c <~ (c + (((((((h << 26) || (h >> 6)) ^ ((h << 21) || (h >> 11))) ^ ((h << 7) || (h >> 25))) + (b ^ (h && (a ^ b)))) + 0x4a7484aa) + s21)) ;;
  g <~ (g + c) ;;
  c <~ (c + (((((d << 30) || (d >> 2)) ^ ((d << 19) || (d >> 13))) ^ ((d << 10) || (d >> 22))) + ((d && (e || f)) || (e && f)))) ;;
  b <~ (b + (((((((g << 26) || (g >> 6)) ^ ((g << 21) || (g >> 11))) ^ ((g << 7) || (g >> 25))) + (a ^ (g && (h ^ a)))) + 0x5cb0a9dc) + s22)) ;;
  f <~ (f + b) ;;
  b <~ (b + (((((c << 30) || (c >> 2)) ^ ((c << 19) || (c >> 13))) ^ ((c << 10) || (c >> 22))) + ((c && (d || e)) || (d && e)))) ;;
  a <~ (a + (((((((f << 26) || (f >> 6)) ^ ((f << 21) || (f >> 11))) ^ ((f << 7) || (f >> 25))) + (h ^ (f && (g ^ h)))) + 0x76f988da) + s23)) ;;
  e <~ (e + a) ;;
  a <~ (a + (((((b << 30) || (b >> 2)) ^ ((b << 19) || (b >> 13))) ^ ((b << 10) || (b >> 22))) + ((b && (c || d)) || (c && d)))) ;;
  h <~ (h + (((((((e << 26) || (e >> 6)) ^ ((e << 21) || (e >> 11))) ^ ((e << 7) || (e >> 25))) + (g ^ (e && (f ^ g)))) + 0x983e5152) + s24)) ;;
  d <~ (d + h) ;;
  h <~ (h + (((((a << 30) || (a >> 2)) ^ ((a << 19) || (a >> 13))) ^ ((a << 10) || (a >> 22))) + ((a && (b || c)) || (b && c)))) ;;
  g <~ (g + (((((((d << 26) || (d >> 6)) ^ ((d << 21) || (d >> 11))) ^ ((d << 7) || (d >> 25))) + (f ^ (d && (e ^ f)))) + 0xa831c66d) + s25)) ;;
  c <~ (c + g) ;;
  g <~ (g + (((((h << 30) || (h >> 2)) ^ ((h << 19) || (h >> 13))) ^ ((h << 10) || (h >> 22))) + ((h && (a || b)) || (a && b)))) ;;
  f <~ (f + (((((((c << 26) || (c >> 6)) ^ ((c << 21) || (c >> 11))) ^ ((c << 7) || (c >> 25))) + (e ^ (c && (d ^ e)))) + 0xb00327c8) + s26)) ;;
  b <~ (b + f) ;;
  f <~ (f + (((((g << 30) || (g >> 2)) ^ ((g << 19) || (g >> 13))) ^ ((g << 10) || (g >> 22))) + ((g && (h || a)) || (h && a)))) ;;
  e <~ (e + (((((((b << 26) || (b >> 6)) ^ ((b << 21) || (b >> 11))) ^ ((b << 7) || (b >> 25))) + (d ^ (b && (c ^ d)))) + 0xbf597fc7) + s27)) ;;
  a <~ (a + e) ;;
  e <~ (e + (((((f << 30) || (f >> 2)) ^ ((f << 19) || (f >> 13))) ^ ((f << 10) || (f >> 22))) + ((f && (g || h)) || (g && h)))) ;;
  d <~ (d + (((((((a << 26) || (a >> 6)) ^ ((a << 21) || (a >> 11))) ^ ((a << 7) || (a >> 25))) + (c ^ (a && (b ^ c)))) + 0xc6e00bf3) + s28)) ;;
  h <~ (h + d) ;;
  d <~ (d + (((((e << 30) || (e >> 2)) ^ ((e << 19) || (e >> 13))) ^ ((e << 10) || (e >> 22))) + ((e && (f || g)) || (f && g)))) ;;
  c <~ (c + (((((((h << 26) || (h >> 6)) ^ ((h << 21) || (h >> 11))) ^ ((h << 7) || (h >> 25))) + (b ^ (h && (a ^ b)))) + 0xd5a79147) + s29)) ;;
  g <~ (g + c) ;;
  c <~ (c + (((((d << 30) || (d >> 2)) ^ ((d << 19) || (d >> 13))) ^ ((d << 10) || (d >> 22))) + ((d && (e || f)) || (e && f)))) ;;
  b <~ (b + (((((((g << 26) || (g >> 6)) ^ ((g << 21) || (g >> 11))) ^ ((g << 7) || (g >> 25))) + (a ^ (g && (h ^ a)))) + 0x06ca6351) + s30)) ;;
  f <~ (f + b) ;;
  b <~ (b + (((((c << 30) || (c >> 2)) ^ ((c << 19) || (c >> 13))) ^ ((c << 10) || (c >> 22))) + ((c && (d || e)) || (d && e)))) ;;
  a <~ (a + (((((((f << 26) || (f >> 6)) ^ ((f << 21) || (f >> 11))) ^ ((f << 7) || (f >> 25))) + (h ^ (f && (g ^ h)))) + 0x14292967) + s31)) ;;
  e <~ (e + a) ;;
  a <~ (a + (((((b << 30) || (b >> 2)) ^ ((b << 19) || (b >> 13))) ^ ((b << 10) || (b >> 22))) + ((b && (c || d)) || (c && d)))) ;;
  h <~ (h + (((((((e << 26) || (e >> 6)) ^ ((e << 21) || (e >> 11))) ^ ((e << 7) || (e >> 25))) + (g ^ (e && (f ^ g)))) + 0x27b70a85) + s32)) ;;
  d <~ (d + h) ;;
  h <~ (h + (((((a << 30) || (a >> 2)) ^ ((a << 19) || (a >> 13))) ^ ((a << 10) || (a >> 22))) + ((a && (b || c)) || (b && c)))) ;;
  g <~ (g + (((((((d << 26) || (d >> 6)) ^ ((d << 21) || (d >> 11))) ^ ((d << 7) || (d >> 25))) + (f ^ (d && (e ^ f)))) + 0x2e1b2138) + s33)) ;;
  c <~ (c + g) ;;
  g <~ (g + (((((h << 30) || (h >> 2)) ^ ((h << 19) || (h >> 13))) ^ ((h << 10) || (h >> 22))) + ((h && (a || b)) || (a && b)))) ;;
  f <~ (f + (((((((c << 26) || (c >> 6)) ^ ((c << 21) || (c >> 11))) ^ ((c << 7) || (c >> 25))) + (e ^ (c && (d ^ e)))) + 0x4d2c6dfc) + s34)) ;;
  b <~ (b + f) ;;
  f <~ (f + (((((g << 30) || (g >> 2)) ^ ((g << 19) || (g >> 13))) ^ ((g << 10) || (g >> 22))) + ((g && (h || a)) || (h && a)))) ;;
  e <~ (e + (((((((b << 26) || (b >> 6)) ^ ((b << 21) || (b >> 11))) ^ ((b << 7) || (b >> 25))) + (d ^ (b && (c ^ d)))) + 0x53380d13) + s35)) ;;
  a <~ (a + e) ;;
  e <~ (e + (((((f << 30) || (f >> 2)) ^ ((f << 19) || (f >> 13))) ^ ((f << 10) || (f >> 22))) + ((f && (g || h)) || (g && h)))) ;;
  d <~ (d + (((((((a << 26) || (a >> 6)) ^ ((a << 21) || (a >> 11))) ^ ((a << 7) || (a >> 25))) + (c ^ (a && (b ^ c)))) + 0x650a7354) + s36)) ;;
  h <~ (h + d) ;;
  d <~ (d + (((((e << 30) || (e >> 2)) ^ ((e << 19) || (e >> 13))) ^ ((e << 10) || (e >> 22))) + ((e && (f || g)) || (f && g)))) ;;
  c <~ (c + (((((((h << 26) || (h >> 6)) ^ ((h << 21) || (h >> 11))) ^ ((h << 7) || (h >> 25))) + (b ^ (h && (a ^ b)))) + 0x766a0abb) + s37)) ;;
  g <~ (g + c) ;;
  c <~ (c + (((((d << 30) || (d >> 2)) ^ ((d << 19) || (d >> 13))) ^ ((d << 10) || (d >> 22))) + ((d && (e || f)) || (e && f)))) ;;
  b <~ (b + (((((((g << 26) || (g >> 6)) ^ ((g << 21) || (g >> 11))) ^ ((g << 7) || (g >> 25))) + (a ^ (g && (h ^ a)))) + 0x81c2c92e) + s38)) ;;
  f <~ (f + b) ;;
  b <~ (b + (((((c << 30) || (c >> 2)) ^ ((c << 19) || (c >> 13))) ^ ((c << 10) || (c >> 22))) + ((c && (d || e)) || (d && e)))) ;;
  a <~ (a + (((((((f << 26) || (f >> 6)) ^ ((f << 21) || (f >> 11))) ^ ((f << 7) || (f >> 25))) + (h ^ (f && (g ^ h)))) + 0x92722c85) + s39)) ;;
  e <~ (e + a) ;;
  a <~ (a + (((((b << 30) || (b >> 2)) ^ ((b << 19) || (b >> 13))) ^ ((b << 10) || (b >> 22))) + ((b && (c || d)) || (c && d)))) ;;
  h <~ (h + (((((((e << 26) || (e >> 6)) ^ ((e << 21) || (e >> 11))) ^ ((e << 7) || (e >> 25))) + (g ^ (e && (f ^ g)))) + 0xa2bfe8a1) + s40)) ;;
  d <~ (d + h) ;;
  h <~ (h + (((((a << 30) || (a >> 2)) ^ ((a << 19) || (a >> 13))) ^ ((a << 10) || (a >> 22))) + ((a && (b || c)) || (b && c)))) ;;
  g <~ (g + (((((((d << 26) || (d >> 6)) ^ ((d << 21) || (d >> 11))) ^ ((d << 7) || (d >> 25))) + (f ^ (d && (e ^ f)))) + 0xa81a664b) + s41)) ;;
  c <~ (c + g) ;;
  g <~ (g + (((((h << 30) || (h >> 2)) ^ ((h << 19) || (h >> 13))) ^ ((h << 10) || (h >> 22))) + ((h && (a || b)) || (a && b)))) ;;
  f <~ (f + (((((((c << 26) || (c >> 6)) ^ ((c << 21) || (c >> 11))) ^ ((c << 7) || (c >> 25))) + (e ^ (c && (d ^ e)))) + 0xc24b8b70) + s42)) ;;
  b <~ (b + f) ;;
  f <~ (f + (((((g << 30) || (g >> 2)) ^ ((g << 19) || (g >> 13))) ^ ((g << 10) || (g >> 22))) + ((g && (h || a)) || (h && a)))) ;;
  e <~ (e + (((((((b << 26) || (b >> 6)) ^ ((b << 21) || (b >> 11))) ^ ((b << 7) || (b >> 25))) + (d ^ (b && (c ^ d)))) + 0xc76c51a3) + s43)) ;;
  a <~ (a + e) ;;
  e <~ (e + (((((f << 30) || (f >> 2)) ^ ((f << 19) || (f >> 13))) ^ ((f << 10) || (f >> 22))) + ((f && (g || h)) || (g && h)))) ;;
  d <~ (d + (((((((a << 26) || (a >> 6)) ^ ((a << 21) || (a >> 11))) ^ ((a << 7) || (a >> 25))) + (c ^ (a && (b ^ c)))) + 0xd192e819) + s44)) ;;
  h <~ (h + d) ;;
  d <~ (d + (((((e << 30) || (e >> 2)) ^ ((e << 19) || (e >> 13))) ^ ((e << 10) || (e >> 22))) + ((e && (f || g)) || (f && g)))) ;;
  c <~ (c + (((((((h << 26) || (h >> 6)) ^ ((h << 21) || (h >> 11))) ^ ((h << 7) || (h >> 25))) + (b ^ (h && (a ^ b)))) + 0xd6990624) + s45)) ;;
  g <~ (g + c) ;;
  c <~ (c + (((((d << 30) || (d >> 2)) ^ ((d << 19) || (d >> 13))) ^ ((d << 10) || (d >> 22))) + ((d && (e || f)) || (e && f)))) ;;
  b <~ (b + (((((((g << 26) || (g >> 6)) ^ ((g << 21) || (g >> 11))) ^ ((g << 7) || (g >> 25))) + (a ^ (g && (h ^ a)))) + 0xf40e3585) + s46)) ;;
  f <~ (f + b) ;;
  b <~ (b + (((((c << 30) || (c >> 2)) ^ ((c << 19) || (c >> 13))) ^ ((c << 10) || (c >> 22))) + ((c && (d || e)) || (d && e)))) ;;
  a <~ (a + (((((((f << 26) || (f >> 6)) ^ ((f << 21) || (f >> 11))) ^ ((f << 7) || (f >> 25))) + (h ^ (f && (g ^ h)))) + 0x106aa070) + s47)) ;;
  e <~ (e + a) ;;
  a <~ (a + (((((b << 30) || (b >> 2)) ^ ((b << 19) || (b >> 13))) ^ ((b << 10) || (b >> 22))) + ((b && (c || d)) || (c && d)))) ;;
  h <~ (h + (((((((e << 26) || (e >> 6)) ^ ((e << 21) || (e >> 11))) ^ ((e << 7) || (e >> 25))) + (g ^ (e && (f ^ g)))) + 0x19a4c116) + s48)) ;;
  d <~ (d + h) ;;
  h <~ (h + (((((a << 30) || (a >> 2)) ^ ((a << 19) || (a >> 13))) ^ ((a << 10) || (a >> 22))) + ((a && (b || c)) || (b && c)))) ;;
  g <~ (g + (((((((d << 26) || (d >> 6)) ^ ((d << 21) || (d >> 11))) ^ ((d << 7) || (d >> 25))) + (f ^ (d && (e ^ f)))) + 0x1e376c08) + s49)) ;;
  c <~ (c + g) ;;
  g <~ (g + (((((h << 30) || (h >> 2)) ^ ((h << 19) || (h >> 13))) ^ ((h << 10) || (h >> 22))) + ((h && (a || b)) || (a && b)))) ;;
  f <~ (f + (((((((c << 26) || (c >> 6)) ^ ((c << 21) || (c >> 11))) ^ ((c << 7) || (c >> 25))) + (e ^ (c && (d ^ e)))) + 0x2748774c) + s50)) ;;
  b <~ (b + f) ;;
  f <~ (f + (((((g << 30) || (g >> 2)) ^ ((g << 19) || (g >> 13))) ^ ((g << 10) || (g >> 22))) + ((g && (h || a)) || (h && a)))) ;;
  e <~ (e + (((((((b << 26) || (b >> 6)) ^ ((b << 21) || (b >> 11))) ^ ((b << 7) || (b >> 25))) + (d ^ (b && (c ^ d)))) + 0x34b0bcb5) + s51)) ;;
  a <~ (a + e) ;;
  e <~ (e + (((((f << 30) || (f >> 2)) ^ ((f << 19) || (f >> 13))) ^ ((f << 10) || (f >> 22))) + ((f && (g || h)) || (g && h)))) ;;
  d <~ (d + (((((((a << 26) || (a >> 6)) ^ ((a << 21) || (a >> 11))) ^ ((a << 7) || (a >> 25))) + (c ^ (a && (b ^ c)))) + 0x391c0cb3) + s52)) ;;
  h <~ (h + d) ;;
  d <~ (d + (((((e << 30) || (e >> 2)) ^ ((e << 19) || (e >> 13))) ^ ((e << 10) || (e >> 22))) + ((e && (f || g)) || (f && g)))) ;;
  c <~ (c + (((((((h << 26) || (h >> 6)) ^ ((h << 21) || (h >> 11))) ^ ((h << 7) || (h >> 25))) + (b ^ (h && (a ^ b)))) + 0x4ed8aa4a) + s53)) ;;
  g <~ (g + c) ;;
  c <~ (c + (((((d << 30) || (d >> 2)) ^ ((d << 19) || (d >> 13))) ^ ((d << 10) || (d >> 22))) + ((d && (e || f)) || (e && f)))) ;;
  b <~ (b + (((((((g << 26) || (g >> 6)) ^ ((g << 21) || (g >> 11))) ^ ((g << 7) || (g >> 25))) + (a ^ (g && (h ^ a)))) + 0x5b9cca4f) + s54)) ;;
  f <~ (f + b) ;;
  b <~ (b + (((((c << 30) || (c >> 2)) ^ ((c << 19) || (c >> 13))) ^ ((c << 10) || (c >> 22))) + ((c && (d || e)) || (d && e)))) ;;
  a <~ (a + (((((((f << 26) || (f >> 6)) ^ ((f << 21) || (f >> 11))) ^ ((f << 7) || (f >> 25))) + (h ^ (f && (g ^ h)))) + 0x682e6ff3) + s55)) ;;
  e <~ (e + a) ;;
  a <~ (a + (((((b << 30) || (b >> 2)) ^ ((b << 19) || (b >> 13))) ^ ((b << 10) || (b >> 22))) + ((b && (c || d)) || (c && d)))) ;;
  h <~ (h + (((((((e << 26) || (e >> 6)) ^ ((e << 21) || (e >> 11))) ^ ((e << 7) || (e >> 25))) + (g ^ (e && (f ^ g)))) + 0x748f82ee) + s56)) ;;
  d <~ (d + h) ;;
  h <~ (h + (((((a << 30) || (a >> 2)) ^ ((a << 19) || (a >> 13))) ^ ((a << 10) || (a >> 22))) + ((a && (b || c)) || (b && c)))) ;;
  g <~ (g + (((((((d << 26) || (d >> 6)) ^ ((d << 21) || (d >> 11))) ^ ((d << 7) || (d >> 25))) + (f ^ (d && (e ^ f)))) + 0x78a5636f) + s57)) ;;
  c <~ (c + g) ;;
  g <~ (g + (((((h << 30) || (h >> 2)) ^ ((h << 19) || (h >> 13))) ^ ((h << 10) || (h >> 22))) + ((h && (a || b)) || (a && b)))) ;;
  f <~ (f + (((((((c << 26) || (c >> 6)) ^ ((c << 21) || (c >> 11))) ^ ((c << 7) || (c >> 25))) + (e ^ (c && (d ^ e)))) + 0x84c87814) + s58)) ;;
  b <~ (b + f) ;;
  f <~ (f + (((((g << 30) || (g >> 2)) ^ ((g << 19) || (g >> 13))) ^ ((g << 10) || (g >> 22))) + ((g && (h || a)) || (h && a)))) ;;
  e <~ (e + (((((((b << 26) || (b >> 6)) ^ ((b << 21) || (b >> 11))) ^ ((b << 7) || (b >> 25))) + (d ^ (b && (c ^ d)))) + 0x8cc70208) + s59)) ;;
  a <~ (a + e) ;;
  e <~ (e + (((((f << 30) || (f >> 2)) ^ ((f << 19) || (f >> 13))) ^ ((f << 10) || (f >> 22))) + ((f && (g || h)) || (g && h)))) ;;
  d <~ (d + (((((((a << 26) || (a >> 6)) ^ ((a << 21) || (a >> 11))) ^ ((a << 7) || (a >> 25))) + (c ^ (a && (b ^ c)))) + 0x90befffa) + s60)) ;;
  h <~ (h + d) ;;
  d <~ (d + (((((e << 30) || (e >> 2)) ^ ((e << 19) || (e >> 13))) ^ ((e << 10) || (e >> 22))) + ((e && (f || g)) || (f && g)))) ;;
  c <~ (c + (((((((h << 26) || (h >> 6)) ^ ((h << 21) || (h >> 11))) ^ ((h << 7) || (h >> 25))) + (b ^ (h && (a ^ b)))) + 0xa4506ceb) + s61)) ;;
  g <~ (g + c) ;;
  c <~ (c + (((((d << 30) || (d >> 2)) ^ ((d << 19) || (d >> 13))) ^ ((d << 10) || (d >> 22))) + ((d && (e || f)) || (e && f)))) ;;
  b <~ (b + (((((((g << 26) || (g >> 6)) ^ ((g << 21) || (g >> 11))) ^ ((g << 7) || (g >> 25))) + (a ^ (g && (h ^ a)))) + 0xbef9a3f7) + s62)) ;;
  f <~ (f + b) ;;
  b <~ (b + (((((c << 30) || (c >> 2)) ^ ((c << 19) || (c >> 13))) ^ ((c << 10) || (c >> 22))) + ((c && (d || e)) || (d && e)))) ;;
  a <~ (a + (((((((f << 26) || (f >> 6)) ^ ((f << 21) || (f >> 11))) ^ ((f << 7) || (f >> 25))) + (h ^ (f && (g ^ h)))) + 0xc67178f2) + s63)) ;;
  e <~ (e + a) ;;
  a <~ (a + (((((b << 30) || (b >> 2)) ^ ((b << 19) || (b >> 13))) ^ ((b << 10) || (b >> 22))) + ((b && (c || d)) || (c && d)))) ;;
  (xa + a, xb + b, xc + c, xd + d, xe + e, xf + f, xg + g, xh + h))%w32.

(* step, lib/crypto/sha512.myr:213-487, statement by statement.  The array or struct is a tuple. *)
Definition step_sha512 (st : N * N * N * N * N * N * N * N) (blk : list N) : N * N * N * N * N * N * N * N :=
  let '(a, b, c, d, e, f, g, h) := st in
  let '(xa, xb, xc, xd, xe, xf, xg, xh) := st in (
  s00 <~ unpack_sha512 (slice blk 0 8) ;;
  s01 <~ unpack_sha512 (slice blk 8 16) ;;
  s02 <~ unpack_sha512 (slice blk 16 24) ;;
  s03 <~ unpack_sha512 (slice blk 24 32) ;;
  s04 <~ unpack_sha512 (slice blk 32 40) ;;
  s05 <~ unpack_sha512 (slice blk 40 48) ;;
  s06 <~ unpack_sha512 (slice blk 48 56) ;;
  s07 <~ unpack_sha512 (slice blk 56 64) ;;
  s08 <~ unpack_sha512 (slice blk 64 72) ;;
  s09 <~ unpack_sha512 (slice blk 72 80) ;;
  s10 <~ unpack_sha512 (slice blk 80 88) ;;
  s11 <~ unpack_sha512 (slice blk 88 96) ;;
  s12 <~ unpack_sha512 (slice blk 96 104) ;;
  s13 <~ unpack_sha512 (slice blk 104 112) ;;
  s14 <~ unpack_sha512 (slice blk 112 120) ;;
  s15 <~ unpack_sha512 (slice blk 120 128) ;;
  s16 <~ (((s00 + s09) + ((((s01 << 63) || (s01 >> 1)) ^ ((s01 << 56) || (s01 >> 8))) ^ (s01 >> 7))) + ((((s14 << 45) || (s14 >> 19)) ^ ((s14 << 3) || (s14 >> 61))) ^ (s14 >> 6))) ;;
  s17 <~ (((s01 + s10) + ((((s02 << 63) || (s02 >> 1)) ^ ((s02 << 56) || (s02 >> 8))) ^ (s02 >> 7))) + ((((s15 << 45) || (s15 >> 19)) ^ ((s15 << 3) || (s15 >> 61))) ^ (s15 >> 6))) ;;
  s18 <~ (((s02 + s11) + ((((s03 << 63) || (s03 >> 1)) ^ ((s03 << 56) || (s03 >> 8))) ^ (s03 >> 7))) + ((((s16 << 45) || (s16 >> 19)) ^ ((s16 << 3) || (s16 >> 61))) ^ (s16 >> 6))) ;;
  s19 <~ (((s03 + s12) + ((((s04 << 63) || (s04 >> 1)) ^ ((s04 << 56) || (s04 >> 8))) ^ (s04 >> 7))) + ((((s17 << 45) || (s17 >> 19)) ^ ((s17 << 3) || (s17 >> 61))) ^ (s17 >> 6))) ;;
  s20 <~ (((s04 + s13) + ((((s05 << 63) || (s05 >> 1)) ^ ((s05 << 56) || (s05 >> 8))) ^ (s05 >> 7))) + ((((s18 << 45) || (s18 >> 19)) ^ ((s18 << 3) || (s18 >> 61))) ^ (s18 >> 6))) ;;
  s21 <~ (((s05 + s14) + ((((s06 << 63) || (s06 >> 1)) ^ ((s06 << 56) || (s06 >> 8))) ^ (s06 >> 7))) + ((((s19 << 45) || (s19 >> 19)) ^ ((s19 << 3) || (s19 >> 61))) ^ (s19 >> 6))) ;;
  s22 <~ (((s06 + s15) + ((((s07 << 63) || (s07 >> 1)) ^ ((s07 << 56) || (s07 >> 8))) ^ (s07 >> 7))) + ((((s20 << 45) || (s20 >> 19)) ^ ((s20 << 3) || (s20 >> 61))) ^ (s20 >> 6))) ;;
  s23 <~ (((s07 + s16) + ((((s08 << 63) || (s08 >> 1)) ^ ((s08 << 56) || (s08 >> 8))) ^ (s08 >> 7))) + ((((s21 << 45) || (s21 >> 19)) ^ ((s21 << 3) || (s21 >> 61))) ^ (s21 >> 6))) ;;
  s24 <~ (((s08 + s17) + ((((s09 << 63) || (s09 >> 1)) ^ ((s09 << 56) || (s09 >> 8))) ^ (s09 >> 7))) + ((((s22 << 45) || (s22 >> 19)) ^ ((s22 << 3) || (s22 >> 61))) ^ (s22 >> 6))) ;;
  s25 <~ (((s09 + s18) + ((((s10 << 63) || (s10 >> 1)) ^ ((s10 << 56) || (s10 >> 8))) ^ (s10 >> 7))) + ((((s23 << 45) || (s23 >> 19)) ^ ((s23 << 3) || (s23 >> 61))) ^ (s23 >> 6))) ;;
  s26 <~ (((s10 + s19) + ((((s11 << 63) || (s11 >> 1)) ^ ((s11 << 56) || (s11 >> 8))) ^ (s11 >> 7))) + ((((s24 << 45) || (s24 >> 19)) ^ ((s24 << 3) || (s24 >> 61))) ^ (s24 >> 6))) ;;
  s27 <~ (((s11 + s20) + ((((s12 << 63) || (s12 >> 1)) ^ ((s12 << 56) || (s12 >> 8))) ^ (s12 >> 7))) + ((((s25 << 45) || (s25 >> 19)) ^ ((s25 << 3) || (s25 >> 61))) ^ (s25 >> 6))) ;;
  s28 <~ (((s12 + s21) + ((((s13 << 63) || (s13 >> 1)) ^ ((s13 << 56) || (s13 >> 8))) ^ (s13 >> 7))) + ((((s26 << 45) || (s26 >> 19)) ^ ((s26 << 3) || (s26 >> 61))) ^ (s26 >> 6))) ;;
  s29 <~ (((s13 + s22) + ((((s14 << 63) || (s14 >> 1)) ^ ((s14 << 56) || (s14 >> 8))) ^ (s14 >> 7))) + ((((s27 << 45) || (s27 >> 19)) ^ ((s27 << 3) || (s27 >> 61))) ^ (s27 >> 6))) ;;
  s30 <~ (((s14 + s23) + ((((s15 << 63) || (s15 >> 1)) ^ ((s15 << 56) || (s15 >> 8))) ^ (s15 >> 7))) + ((((s28 << 45) || (s28 >> 19)) ^ ((s28 << 3) || (s28 >> 61))) ^ (s28 >> 6))) ;;
  s31 <~ (((s15 + s24) + ((((s16 << 63) || (s16 >> 1)) ^ ((s16 << 56) || (s16 >> 8))) ^ (s16 >> 7))) + ((((s29 << 45) || (s29 >> 19)) ^ ((s29 << 3) || (s29 >> 61))) ^ (s29 >> 6))) ;;
  s32 <~ (((s16 + s25) + ((((s17 << 63) || (s17 >> 1)) ^ ((s17 << 56) || (s17 >> 8))) ^ (s17 >> 7))) + ((((s30 << 45) || (s30 >> 19)) ^ ((s30 << 3) || (s30 >> 61))) ^ (s30 >> 6))) ;;
  s33 <~ (((s17 + s26) + ((((s18 << 63) || (s18 >> 1)) ^ ((s18 << 56) || (s18 >> 8))) ^ (s18 >> 7))) + ((((s31 << 45) || (s31 >> 19)) ^ ((s31 << 3) || (s31 >> 61))) ^ (s31 >> 6))) ;;
  s34 <~ (((s18 + s27) + ((((s19 << 63) || (s19 >> 1)) ^ ((s19 << 56) || (s19 >> 8))) ^ (s19 >> 7))) + ((((s32 << 45) || (s32 >> 19)) ^ ((s32 << 3) || (s32 >> 61))) ^ (s32 >> 6))) ;;
  s35 <~ (((s19 + s28) + ((((s20 << 63) || (s20 >> 1)) ^ ((s20 << 56) || (s20 >> 8))) ^ (s20 >> 7))) + ((((s33 << 45) || (s33 >> 19)) ^ ((s33 << 3) || (s33 >> 61))) ^ (s33 >> 6))) ;;
  s36 <~ (((s20 + s29) + ((((s21 << 63) || (s21 >> 1)) ^ ((s21 << 56) || (s21 >> 8))) ^ (s21 >> 7))) + ((((s34 << 45) || (s34 >> 19)) ^ ((s34 << 3) || (s34 >> 61))) ^ (s34 >> 6))) ;;
  s37 <~ (((s21 + s30) + ((((s22 << 63) || (s22 >> 1)) ^ ((s22 << 56) || (s22 >> 8))) ^ (s22 >> 7))) + ((((s35 << 45) || (s35 >> 19)) ^ ((s35 << 3) || (s35 >> 61))) ^ (s35 >> 6))) ;;
  s38 <~ (((s22 + s31) + ((((s23 << 63) || (s23 >> 1)) ^ ((s23 << 56) || (s23 >> 8))) ^ (s23 >> 7))) + ((((s36 << 45) || (s36 >> 19)) ^ ((s36 << 3) || (s36 >> 61))) ^ (s36 >> 6))) ;;
  s39 <~ (((s23 + s32) + ((((s24 << 63) || (s24 >> 1)) ^ ((s24 << 56) || (s24 >> 8))) ^ (s24 >> 7))) + ((((s37 << 45) || (s37 >> 19)) ^ ((s37 << 3) || (s37 >> 61))) ^ (s37 >> 6))) ;;
  s40 <~ (((s24 + s33) + ((((s25 << 63) || (s25 >> 1)) ^ ((s25 << 56) || (s25 >> 8))) ^ (s25 >> 7))) + ((((s38 << 45) || (s38 >> 19)) ^ ((s38 << 3) || (s38 >> 61))) ^ (s38 >> 6))) ;;
  s41 <~ (((s25 + s34) + ((((s26 << 63) || (s26 >> 1)) ^ ((s26 << 56) || (s26 >> 8))) ^ (s26 >> 7))) + ((((s39 << 45) || (s39 >> 19)) ^ ((s39 << 3) || (s39 >> 61))) ^ (s39 >> 6))) ;;
  s42 <~ (((s26 + s35) + ((((s27 << 63) || (s27 >> 1)) ^ ((s27 << 56) || (s27 >> 8))) ^ (s27 >> 7))) + ((((s40 << 45) || (s40 >> 19)) ^ ((s40 << 3) || (s40 >> 61))) ^ (s40 >> 6))) ;;
  s43 <~ (((s27 + s36) + ((((s28 << 63) || (s28 >> 1)) ^ ((s28 << 56) || (s28 >> 8))) ^ (s28 >> 7))) + ((((s41 << 45) || (s41 >> 19)) ^ ((s41 << 3) || (s41 >> 61))) ^ (s41 >> 6))) ;;
  s44 <~ (((s28 + s37) + ((((s29 << 63) || (s29 >> 1)) ^ ((s29 << 56) || (s29 >> 8))) ^ (s29 >> 7))) + ((((s42 << 45) || (s42 >> 19)) ^ ((s42 << 3) || (s42 >> 61))) ^ (s42 >> 6))) ;;
  s45 <~ (((s29 + s38) + ((((s30 << 63) || (s30 >> 1)) ^ ((s30 << 56) || (s30 >> 8))) ^ (s30 >> 7))) + ((((s43 << 45) || (s43 >> 19)) ^ ((s43 << 3) || (s43 >> 61))) ^ (s43 >> 6))) ;;
  s46 <~ (((s30 + s39) + ((((s31 << 63) || (s31 >> 1)) ^ ((s31 << 56) || (s31 >> 8))) ^ (s31 >> 7))) + ((((s44 << 45) || (s44 >> 19)) ^ ((s44 << 3) || (s44 >> 61))) ^ (s44 >> 6))) ;;
  s47 <~ (((s31 + s40) + ((((s32 << 63) || (s32 >> 1)) ^ ((s32 << 56) || (s32 >> 8))) ^ (s32 >> 7))) + ((((s45 << 45) || (s45 >> 19)) ^ ((s45 << 3) || (s45 >> 61))) ^ (s45 >> 6))) ;;
  s48 <~ (((s32 + s41) + ((((s33 << 63) || (s33 >> 1)) ^ ((s33 << 56) || (s33 >> 8))) ^ (s33 >> 7))) + ((((s46 << 45) || (s46 >> 19)) ^ ((s46 << 3) || (s46 >> 61))) ^ (s46 >> 6))) ;;
  s49 <~ (((s33 + s42) + ((((s34 << 63) || (s34 >> 1)) ^ ((s34 << 56) || (s34 >> 8))) ^ (s34 >> 7))) + ((((s47 << 45) || (s47 >> 19)) ^ ((s47 << 3) || (s47 >> 61))) ^ (s47 >> 6))) ;;
  s50 <~ (((s34 + s43) + ((((s35 << 63) || (s35 >> 1)) ^ ((s35 << 56) || (s35 >> 8))) ^ (s35 >> 7))) + ((((s48 << 45) || (s48 >> 19)) ^ ((s48 << 3) || (s48 >> 61))) ^ (s48 >> 6))) ;;
  s51 <~ (((s35 + s44) + ((((s36 << 63) || (s36 >> 1)) ^ ((s36 << 56) || (s36 >> 8))) ^ (s36 >> 7))) + ((((s49 << 45) || (s49 >> 19)) ^ ((s49 << 3) || (s49 >> 61))) ^ (s49 >> 6))) ;;
  s52 <~ (((s36 + s45) + ((((s37 << 63) || (s37 >> 1)) ^ ((s37 << 56) || (s37 >> 8))) ^ (s37 >> 7))) + ((((s50 << 45) || (s50 >> 19)) ^ ((s50 << 3) || (s50 >> 61))) ^ (s50 >> 6))) ;;
  s53 <~ (((s37 + s46) + ((((s38 << 63) || (s38 >> 1)) ^ ((s38 << 56) || (s38 >> 8))) ^ (s38 >> 7))) + ((((s51 << 45) || (s51 >> 19)) ^ ((s51 << 3) || (s51 >> 61))) ^ (s51 >> 6))) ;;
  s54 <~ (((s38 + s47) + ((((s39 << 63) || (s39 >> 1)) ^ ((s39 << 56) || (s39 >> 8))) ^ (s39 >> 7))) + ((((s52 << 45) || (s52 >> 19)) ^ ((s52 << 3) || (s52 >> 61))) ^ (s52 >> 6))) ;;
  s55 <~ (((s39 + s48) + ((((s40 << 63) || (s40 >> 1)) ^ ((s40 << 56) || (s40 >> 8))) ^ (s40 >> 7))) + ((((s53 << 45) || (s53 >> 19)) ^ ((s53 << 3) || (s53 >> 61))) ^ (s53 >> 6))) ;;
  s56 <~ (((s40 + s49) + ((((s41 << 63) || (s41 >> 1)) ^ ((s41 << 56) || (s41 >> 8))) ^ (s41 >> 7))) + ((((s54 << 45) || (s54 >> 19)) ^ ((s54 << 3) || (s54 >> 61))) ^ (s54 >> 6))) ;;
  s57 <~ (((s41 + s50) + ((((s42 << 63) || (s42 >> 1)) ^ ((s42 << 56) || (s42 >> 8))) ^ (s42 >> 7))) + ((((s55 << 45) || (s55 >> 19)) ^ ((s55 << 3) || (s55 >> 61))) ^ (s55 >> 6))) ;;
  s58 <~ (((s42 + s51) + ((((s43 << 63) || (s43 >> 1)) ^ ((s43 << 56) || (s43 >> 8))) ^ (s43 >> 7))) + ((((s56 << 45) || (s56 >> 19)) ^ ((s56 << 3) || (s56 >> 61))) ^ (s56 >> 6))) ;;
  s59 <~ (((s43 + s52) + ((((s44 << 63) || (s44 >> 1)) ^ ((s44 << 56) || (s44 >> 8))) ^ (s44 >> 7))) + ((((s57 << 45) || (s57 >> 19)) ^ ((s57 << 3) || (s57 >> 61))) ^ (s57 >> 6))) ;;
  s60 <~ (((s44 + s53) + ((((s45 << 63) || (s45 >> 1)) ^ ((s45 << 56) || (s45 >> 8))) ^ (s45 >> 7))) + ((((s58 << 45) || (s58 >> 19)) ^ ((s58 << 3) || (s58 >> 61))) ^ (s58 >> 6))) ;;
  s61 <~ (((s45 + s54) + ((((s46 << 63) || (s46 >> 1)) ^ ((s46 << 56) || (s46 >> 8))) ^ (s46 >> 7))) + ((((s59 << 45) || (s59 >> 19)) ^ ((s59 << 3) || (s59 >> 61))) ^ (s59 >> 6))) ;;
  s62 <~ (((s46 + s55) + ((((s47 << 63) || (s47 >> 1)) ^ ((s47 << 56) || (s47 >> 8))) ^ (s47 >> 7))) + ((((s60 << 45) || (s60 >> 19)) ^ ((s60 << 3) || (s60 >> 61))) ^ (s60 >> 6))) ;;
  s63 <~ (((s47 + s56) + ((((s48 << 63) || (s48 >> 1)) ^ ((s48 << 56) || (s48 >> 8))) ^ (s48 >> 7))) + ((((s61 << 45) || (s61 >> 19)) ^ ((s61 << 3) || (s61 >> 61))) ^ (s61 >> 6))) ;;
  s64 <~ (((s48 + s57) + ((((s49 << 63) || (s49 >> 1)) ^ ((s49 << 56) || (s49 >> 8))) ^ (s49 >> 7))) + ((((s62 << 45) || (s62 >> 19)) ^ ((s62 << 3) || (s62 >> 61))) ^ (s62 >> 6))) ;;
  s65 <~ (((s49 + s58) + ((((s50 << 63) || (s50 >> 1)) ^ ((s50 << 56) || (s50 >> 8))) ^ (s50 >> 7))) + ((((s63 << 45) || (s63 >> 19)) ^ ((s63 << 3) || (s63 >> 61))) ^ (s63 >> 6))) ;;
  s66 <~ (((s50 + s59) + ((((s51 << 63) || (s51 >> 1)) ^ ((s51 << 56) || (s51 >> 8))) ^ (s51 >> 7))) + ((((s64 << 45) || (s64 >> 19)) ^ ((s64 << 3) || (s64 >> 61))) ^ (s64 >> 6))) ;;
  s67 <~ (((s51 + s60) + ((((s52 << 63) || (s52 >> 1)) ^ ((s52 << 56) || (s52 >> 8))) ^ (s52 >> 7))) + ((((s65 << 45) || (s65 >> 19)) ^ ((s65 << 3) || (s65 >> 61))) ^ (s65 >> 6))) ;;
  s68 <~ (((s52 + s61) + ((((s53 << 63) || (s53 >> 1)) ^ ((s53 << 56) || (s53 >> 8))) ^ (s53 >> 7))) + ((((s66 << 45) || (s66 >> 19)) ^ ((s66 << 3) || (s66 >> 61))) ^ (s66 >> 6))) ;;
  s69 <~ (((s53 + s62) + ((((s54 << 63) || (s54 >> 1)) ^ ((s54 << 56) || (s54 >> 8))) ^ (s54 >> 7))) + ((((s67 << 45) || (s67 >> 19)) ^ ((s67 << 3) || (s67 >> 61))) ^ (s67 >> 6))) ;;
  s70 <~ (((s54 + s63) + ((((s55 << 63) || (s55 >> 1)) ^ ((s55 << 56) || (s55 >> 8))) ^ (s55 >> 7))) + ((((s68 << 45) || (s68 >> 19)) ^ ((s68 << 3) || (s68 >> 61))) ^ (s68 >> 6))) ;;
  s71 <~ (((s55 + s64) + ((((s56 << 63) || (s56 >> 1)) ^ ((s56 << 56) || (s56 >> 8))) ^ (s56 >> 7))) + ((((s69 << 45) || (s69 >> 19)) ^ ((s69 << 3) || (s69 >> 61))) ^ (s69 >> 6))) ;;
  s72 <~ (((s56 + s65) + ((((s57 << 63) || (s57 >> 1)) ^ ((s57 << 56) || (s57 >> 8))) ^ (s57 >> 7))) + ((((s70 << 45) || (s70 >> 19)) ^ ((s70 << 3) || (s70 >> 61))) ^ (s70 >> 6))) ;;
  s73 <~ (((s57 + s66) + ((((s58 << 63) || (s58 >> 1)) ^ ((s58 << 56) || (s58 >> 8))) ^ (s58 >> 7))) + ((((s71 << 45) || (s71 >> 19)) ^ ((s71 << 3) || (s71 >> 61))) ^ (s71 >> 6))) ;;
  s74 <~ (((s58 + s67) + ((((s59 << 63) || (s59 >> 1)) ^ ((s59 << 56) || (s59 >> 8))) ^ (s59 >> 7))) + ((((s72 << 45) || (s72 >> 19)) ^ ((s72 << 3) || (s72 >> 61))) ^ (s72 >> 6))) ;;
  s75 <~ (((s59 + s68) + ((((s60 << 63) || (s60 >> 1)) ^ ((s60 << 56) || (s60 >> 8))) ^ (s60 >> 7))) + ((((s73 << 45) || (s73 >> 19)) ^ ((s73 << 3) || (s73 >> 61))) ^ (s73 >> 6))) ;;
  s76 <~ (((s60 + s69) + ((((s61 << 63) || (s61 >> 1)) ^ ((s61 << 56) || (s61 >> 8))) ^ (s61 >> 7))) + ((((s74 << 45) || (s74 >> 19)) ^ ((s74 << 3) || (s74 >> 61))) ^ (s74 >> 6))) ;;
  s77 <~ (((s61 + s70) + ((((s62 << 63) || (s62 >> 1)) ^ ((s62 << 56) || (s62 >> 8))) ^ (s62 >> 7))) + ((((s75 << 45) || (s75 >> 19)) ^ ((s75 << 3) || (s75 >> 61))) ^ (s75 >> 6))) ;;
  s78 <~ (((s62 + s71) + ((((s63 << 63) || (s63 >> 1)) ^ ((s63 << 56) || (s63 >> 8))) ^ (s63 >> 7))) + ((((s76 << 45) || (s76 >> 19)) ^ ((s76 << 3) || (s76 >> 61))) ^ (s76 >> 6))) ;;
  s79 <~ (((s63 + s72) + ((((s64 << 63) || (s64 >> 1)) ^ ((s64 << 56) || (s64 >> 8))) ^ (s64 >> 7))) + ((((s77 << 45) || (s77 >> 19)) ^ ((s77 << 3) || (s77 >> 61))) ^ (s77 >> 6))) ;;
  h <~ (h + (((((((e << 50) || (e >> 14)) ^ ((e << 46) || (e >> 18))) ^ ((e << 23) || (e >> 41))) + (g ^ (e && (f ^ g)))) + 0x428a2f98d728ae22) + s00)) ;;
  d <~ (d + h) ;;
  h <~ (h + (((((a << 36) || (a >> 28)) ^ ((a << 30) || (a >> 34))) ^ ((a << 25) || (a >> 39))) + ((a && (b || c)) || (b && c)))) ;;
  g <~ (g + (((((((d << 50) || (d >> 14)) ^ ((d << 46) || (d >> 18))) ^ ((d << 23) || (d >> 41))) + (f ^ (d && (e ^ f)))) + 0x7137449123ef65cd) + s01)) ;;
  c <~ (c + g) ;;
  g <~ (g + (((((h << 36) || (h >> 28)) ^ ((h << 30) || (h >> 34))) ^ ((h << 25) || (h >> 39))) + ((h && (a || b)) || (a && b)))) ;;
  f <~ (f + (((((((c << 50) || (c >> 14)) ^ ((c << 46) || (c >> 18))) ^ ((c << 23) || (c >> 41))) + (e ^ (c && (d ^ e)))) + 0xb5c0fbcfec4d3b2f) + s02)) ;;
  b <~ (b + f) ;;
  f <~ (f + (((((g << 36) || (g >> 28)) ^ ((g << 30) || (g >> 34))) ^ ((g << 25) || (g >> 39))) + ((g && (h || a)) || (h && a)))) ;;
  e <~ (e + (((((((b << 50) || (b >> 14)) ^ ((b << 46) || (b >> 18))) ^ ((b << 23) || (b >> 41))) + (d ^ (b && (c ^ d)))) + 0xe9b5dba58189dbbc) + s03)) ;;
  a <~ (a + e) ;;
  e <~ (e + (((((f << 36) || (f >> 28)) ^ ((f << 30) || (f >> 34))) ^ ((f << 25) || (f >> 39))) + ((f && (g || h)) || (g && h)))) ;;
  d <~ (d + (((((((a << 50) || (a >> 14)) ^ ((a << 46) || (a >> 18))) ^ ((a << 23) || (a >> 41))) + (c ^ (a && (b ^ c)))) + 0x3956c25bf348b538) + s04)) ;;
  h <~ (h + d) ;;
  d <~ (d + (((((e << 36) || (e >> 28)) ^ ((e << 30) || (e >> 34))) ^ ((e << 25) || (e >> 39))) + ((e && (f || g)) || (f && g)))) ;;
  c <~ (c + (((((((h << 50) || (h >> 14)) ^ ((h << 46) || (h >> 18))) ^ ((h << 23) || (h >> 41))) + (b ^ (h && (a ^ b)))) + 0x59f111f1b605d019) + s05)) ;;
  g <~ (g + c) ;;
  c <~ (c + (((((d << 36) || (d >> 28)) ^ ((d << 30) || (d >> 34))) ^ ((d << 25) || (d >> 39))) + ((d && (e || f)) || (e && f)))) ;;
  b <~ (b + (((((((g << 50) || (g >> 14)) ^ ((g << 46) || (g >> 18))) ^ ((g << 23) || (g >> 41))) + (a ^ (g && (h ^ a)))) + 0x923f82a4af194f9b) + s06)) ;;
  f <~ (f + b) ;;
  b <~ (b + (((((c << 36) || (c >> 28)) ^ ((c << 30) || (c >> 34))) ^ ((c << 25) || (c >> 39))) + ((c && (d || e)) || (d && e)))) ;;
  a <~ (a + (((((((f << 50) || (f >> 14)) ^ ((f << 46) || (f >> 18))) ^ ((f << 23) || (f >> 41))) + (h ^ (f && (g ^ h)))) + 0xab1c5ed5da6d8118) + s07)) ;;
  e <~ (e + a) ;;
  a <~ (a + (((((b << 36) || (b >> 28)) ^ ((b << 30) || (b >> 34))) ^ ((b << 25) || (b >> 39))) + ((b && (c || d)) || (c && d)))) ;;
  h <~ (h + (((((((e << 50) || (e >> 14)) ^ ((e << 46) || (e >> 18))) ^ ((e << 23) || (e >> 41))) + (g ^ (e && (f ^ g)))) + 0xd807aa98a3030242) + s08)) ;;
  d <~ (d + h) ;;
  h <~ (h + (((((a << 36) || (a >> 28)) ^ ((a << 30) || (a >> 34))) ^ ((a << 25) || (a >> 39))) + ((a && (b || c)) || (b && c)))) ;;
  g <~ (g + (((((((d << 50) || (d >> 14)) ^ ((d << 46) || (d >> 18))) ^ ((d << 23) || (d >> 41))) + (f ^ (d && (e ^ f)))) + 0x12835b0145706fbe) + s09)) ;;
  c <~ (c + g) ;;
  g <~ (g + (((((h << 36) || (h >> 28)) ^ ((h << 30) || (h >> 34))) ^ ((h << 25) || (h >> 39))) + ((h && (a || b)) || (a && b)))) ;;
  f <~ (f + (((((((c << 50) || (c >> 14)) ^ ((c << 46) || (c >> 18))) ^ ((c << 23) || (c >> 41))) + (e ^ (c && (d ^ e)))) + 0x243185be4ee4b28c) + s10)) ;;
  b <~ (b + f) ;;
  f <~ (f + (((((g << 36) || (g >> 28)) ^ ((g << 30) || (g >> 34))) ^ ((g << 25) || (g >> 39))) + ((g && (h || a)) || (h && a)))) ;;
  e <~ (e + (((((((b << 50) || (b >> 14)) ^ ((b << 46) || (b >> 18))) ^ ((b << 23) || (b >> 41))) + (d ^ (b && (c ^ d)))) + 0x550c7dc3d5ffb4e2) + s11)) ;;
  a <~ (a + e) ;;
  e <~ (e + (((((f << 36) || (f >> 28)) ^ ((f << 30) || (f >> 34))) ^ ((f << 25) || (f >> 39))) + ((f && (g || h)) || (g && h)))) ;;
  d <~ (d + (((((((a << 50) || (a >> 14)) ^ ((a << 46) || (a >> 18))) ^ ((a << 23) || (a >> 41))) + (c ^ (a && (b ^ c)))) + 0x72be5d74f27b896f) + s12)) ;;
  h <~ (h + d) ;;
  d <~ (d + (((((e << 36) || (e >> 28)) ^ ((e << 30) || (e >> 34))) ^ ((e << 25) || (e >> 39))) + ((e && (f || g)) || (f && g)))) ;;
  c <~ (c + (((((((h << 50) || (h >> 14)) ^ ((h << 46) || (h >> 18))) ^ ((h << 23) || (h >> 41))) + (b ^ (h && (a ^ b)))) + 0x80deb1fe3b1696b1) + s13)) ;;
  g <~ (g + c) ;;
  c <~ (c + (((((d << 36) || (d >> 28)) ^ ((d << 30) || (d >> 34))) ^ ((d << 25) || (d >> 39))) + ((d && (e || f)) || (e && f)))) ;;
  b <~ (b + (((((((g << 50) || (g >> 14)) ^ ((g << 46) || (g >> 18))) ^ ((g << 23) || (g >> 41))) + (a ^ (g && (h ^ a)))) + 0x9bdc06a725c71235) + s14)) ;;
  f <~ (f + b) ;;
  b <~ (b + (((((c << 36) || (c >> 28)) ^ ((c << 30) || (c >> 34))) ^ ((c << 25) || (c >> 39))) + ((c && (d || e)) || (d && e)))) ;;
  a <~ (a + (((((((f << 50) || (f >> 14)) ^ ((f << 46) || (f >> 18))) ^ ((f << 23) || (f >> 41))) + (h ^ (f && (g ^ h)))) + 0xc19bf174cf692694) + s15)) ;;
  e <~ (e + a) ;;
  a <~ (a + (((((b << 36) || (b >> 28)) ^ ((b << 30) || (b >> 34))) ^ ((b << 25) || (b >> 39))) + ((b && (c || d)) || (c && d)))) ;;
  h <~ (h + (((((((e << 50) || (e >> 14)) ^ ((e << 46) || (e >> 18))) ^ ((e << 23) || (e >> 41))) + (g ^ (e && (f ^ g)))) + 0xe49b69c19ef14ad2) + s16)) ;;
  d <~ (d + h) ;;
  h <~ (h + (((((a << 36) || (a >> 28)) ^ ((a << 30) || (a >> 34))) ^ ((a << 25) || (a >> 39))) + ((a && (b || c)) || (b && c)))) ;;
  g <~ (g + (((((((d << 50) || (d >> 14)) ^ ((d << 46) || (d >> 18))) ^ ((d << 23) || (d >> 41))) + (f ^ (d && (e ^ f)))) + 0xefbe4786384f25e3) + s17)) ;;
  c <~ (c + g) ;;
  g <~ (g + (((((h << 36) || (h >> 28)) ^ ((h << 30) || (h >> 34))) ^ ((h << 25) || (h >> 39))) + ((h && (a || b)) || (a && b)))) ;;
  f <~ (f + (((((((c << 50) || (c >> 14)) ^ ((c << 46) || (c >> 18))) ^ ((c << 23) || (c >> 41))) + (e ^ (c && (d ^ e)))) + 0x0fc19dc68b8cd5b5) + s18)) ;;
  b <~ (b + f) ;;
  f <~ (f + (((((g << 36) || (g >> 28)) ^ ((g << 30) || (g >> 34))) ^ ((g << 25) || (g >> 39))) + ((g && (h || a)) || (h && a)))) ;;
  e <~ (e + (((((((b << 50) || (b >> 14)) ^ ((b << 46) || (b >> 18))) ^ ((b << 23) || (b >> 41))) + (d ^ (b && (c ^ d)))) + 0x240ca1cc77ac9c65) + s19)) ;;
  a <~ (a + e) ;;
  e <~ (e + (((((f << 36) || (f >> 28)) ^ ((f << 30) || (f >> 34))) ^ ((f << 25) || (f >> 39))) + ((f && (g || h)) || (g && h)))) ;;
  d <~ (d + (((((((a << 50) || (a >> 14)) ^ ((a << 46) || (a >> 18))) ^ ((a << 23) || (a >> 41))) + (c ^ (a && (b ^ c)))) + 0x2de92c6f592b0275) + s20)) ;;
  h <~ (h + d) ;;
  d <~ (d + (((((e << 36) || (e >> 28)) ^ ((e << 30) || (e >> 34))) ^ ((e << 25) || (e >> 39))) + ((e && (f || g)) || (f && g)))) ;;
  c <~ (c + (((((((h << 50) || (h >> 14)) ^ ((h << 46) || (h >> 18))) ^ ((h << 23) || (h >> 41))) + (b ^ (h && (a ^ b)))) + 0x4a7484aa6ea6e483) + s21)) ;;
  g <~ (g + c) ;;
  c <~ (c + (((((d << 36) || (d >> 28)) ^ ((d << 30) || (d >> 34))) ^ ((d << 25) || (d >> 39))) + ((d && (e || f)) || (e && f)))) ;;
  b <~ (b + (((((((g << 50) || (g >> 14)) ^ ((g << 46) || (g >> 18))) ^ ((g << 23) || (g >> 41))) + (a ^ (g && (h ^ a)))) + 0x5cb0a9dcbd41fbd4) + s22)) ;;
  f <~ (f + b) ;;
  b <~ (b + (((((c << 36) || (c >> 28)) ^ ((c << 30) || (c >> 34))) ^ ((c << 25) || (c >> 39))) + ((c && (d || e)) || (d && e)))) ;;
  a <~ (a + (((((((f << 50) || (f >> 14)) ^ ((f << 46) || (f >> 18))) ^ ((f << 23) || (f >> 41))) + (h ^ (f && (g ^ h)))) + 0x76f988da831153b5) + s23)) ;;
  e <~ (e + a) ;;
  a <~ (a + (((((b << 36) || (b >> 28)) ^ ((b << 30) || (b >> 34))) ^ ((b << 25) || (b >> 39))) + ((b && (c || d)) || (c && d)))) ;;
  h <~ (h + (((((((e << 50) || (e >> 14)) ^ ((e << 46) || (e >> 18))) ^ ((e << 23) || (e >> 41))) + (g ^ (e && (f ^ g)))) + 0x983e5152ee66dfab) + s24)) ;;
  d <~ (d + h) ;;
  h <~ (h + (((((a << 36) || (a >> 28)) ^ ((a << 30) || (a >> 34))) ^ ((a << 25) || (a >> 39))) + ((a && (b || c)) || (b && c)))) ;;
  g <~ (g + (((((((d << 50) || (d >> 14)) ^ ((d << 46) || (d >> 18))) ^ ((d << 23) || (d >> 41))) + (f ^ (d && (e ^ f)))) + 0xa831c66d2db43210) + s25)) ;;
  c <~ (c + g) ;;
  g <~ (g + (((((h << 36) || (h >> 28)) ^ ((h << 30) || (h >> 34))) ^ ((h << 25) || (h >> 39))) + ((h && (a || b)) || (a && b)))) ;;
  f <~ (f + (((((((c << 50) || (c >> 14)) ^ ((c << 46) || (c >> 18))) ^ ((c << 23) || (c >> 41))) + (e ^ (c && (d ^ e)))) + 0xb00327c898fb213f) + s26)) ;;
  b <~ (b + f) ;;
  f <~ (f + (((((g << 36) || (g >> 28)) ^ ((g << 30) || (g >> 34))) ^ ((g << 25) || (g >> 39))) + ((g && (h || a)) || (h && a)))) ;;
  e <~ (e + (((((((b << 50) || (b >> 14)) ^ ((b << 46) || (b >> 18))) ^ ((b << 23) || (b >> 41))) + (d ^ (b && (c ^ d)))) + 0xbf597fc7beef0ee4) + s27)) ;;
  a <~ (a + e) ;;
  e <~ (e + (((((f << 36) || (f >> 28)) ^ ((f << 30) || (f >> 34))) ^ ((f << 25) || (f >> 39))) + ((f && (g || h)) || (g && h)))) ;;
  d <~ (d + (((((((a << 50) || (a >> 14)) ^ ((a << 46) || (a >> 18))) ^ ((a << 23) || (a >> 41))) + (c ^ (a && (b ^ c)))) + 0xc6e00bf33da88fc2) + s28)) ;;
  h <~ (h + d) ;;
  d <~ (d + (((((e << 36) || (e >> 28)) ^ ((e << 30) || (e >> 34))) ^ ((e << 25) || (e >> 39))) + ((e && (f || g)) || (f && g)))) ;;
  c <~ (c + (((((((h << 50) || (h >> 14)) ^ ((h << 46) || (h >> 18))) ^ ((h << 23) || (h >> 41))) + (b ^ (h && (a ^ b)))) + 0xd5a79147930aa725) + s29)) ;;
  g <~ (g + c) ;;
  c <~ (c + (((((d << 36) || (d >> 28)) ^ ((d << 30) || (d >> 34))) ^ ((d << 25) || (d >> 39))) + ((d && (e || f)) || (e && f)))) ;;
  b <~ (b + (((((((g << 50) || (g >> 14)) ^ ((g << 46) || (g >> 18))) ^ ((g << 23) || (g >> 41))) + (a ^ (g && (h ^ a)))) + 0x06ca6351e003826f) + s30)) ;;
  f <~ (f + b) ;;
  b <~ (b + (((((c << 36) || (c >> 28)) ^ ((c << 30) || (c >> 34))) ^ ((c << 25) || (c >> 39))) + ((c && (d || e)) || (d && e)))) ;;
  a <~ (a + (((((((f << 50) || (f >> 14)) ^ ((f << 46) || (f >> 18))) ^ ((f << 23) || (f >> 41))) + (h ^ (f && (g ^ h)))) + 0x142929670a0e6e70) + s31)) ;;
  e <~ (e + a) ;;
  a <~ (a + (((((b << 36) || (b >> 28)) ^ ((b << 30) || (b >> 34))) ^ ((b << 25) || (b >> 39))) + ((b && (c || d)) || (c && d)))) ;;
  h <~ (h + (((((((e << 50) || (e >> 14)) ^ ((e << 46) || (e >> 18))) ^ ((e << 23) || (e >> 41))) + (g ^ (e && (f ^ g)))) + 0x27b70a8546d22ffc) + s32)) ;;
  d <~ (d + h) ;;
  h <~ (h + (((((a << 36) || (a >> 28)) ^ ((a << 30) || (a >> 34))) ^ ((a << 25) || (a >> 39))) + ((a && (b || c)) || (b && c)))) ;;
  g <~ (g + (((((((d << 50) || (d >> 14)) ^ ((d << 46) || (d >> 18))) ^ ((d << 23) || (d >> 41))) + (f ^ (d && (e ^ f)))) + 0x2e1b21385c26c926) + s33)) ;;
  c <~ (c + g) ;;
  g <~ (g + (((((h << 36) || (h >> 28)) ^ ((h << 30) || (h >> 34))) ^ ((h << 25) || (h >> 39))) + ((h && (a || b)) || (a && b)))) ;;
  f <~ (f + (((((((c << 50) || (c >> 14)) ^ ((c << 46) || (c >> 18))) ^ ((c << 23) || (c >> 41))) + (e ^ (c && (d ^ e)))) + 0x4d2c6dfc5ac42aed) + s34)) ;;
  b <~ (b + f) ;;
  f <~ (f + (((((g << 36) || (g >> 28)) ^ ((g << 30) || (g >> 34))) ^ ((g << 25) || (g >> 39))) + ((g && (h || a)) || (h && a)))) ;;
  e <~ (e + (((((((b << 50) || (b >> 14)) ^ ((b << 46) || (b >> 18))) ^ ((b << 23) || (b >> 41))) + (d ^ (b && (c ^ d)))) + 0x53380d139d95b3df) + s35)) ;;
  a <~ (a + e) ;;
  e <~ (e + (((((f << 36) || (f >> 28)) ^ ((f << 30) || (f >> 34))) ^ ((f << 25) || (f >> 39))) + ((f && (g || h)) || (g && h)))) ;;
  d <~ (d + (((((((a << 50) || (a >> 14)) ^ ((a << 46) || (a >> 18))) ^ ((a << 23) || (a >> 41))) + (c ^ (a && (b ^ c)))) + 0x650a73548baf63de) + s36)) ;;
  h <~ (h + d) ;;
  d <~ (d + (((((e << 36) || (e >> 28)) ^ ((e << 30) || (e >> 34))) ^ ((e << 25) || (e >> 39))) + ((e && (f || g)) || (f && g)))) ;;
  c <~ (c + (((((((h << 50) || (h >> 14)) ^ ((h << 46) || (h >> 18))) ^ ((h << 23) || (h >> 41))) + (b ^ (h && (a ^ b)))) + 0x766a0abb3c77b2a8) + s37)) ;;
  g <~ (g + c) ;;
  c <~ (c + (((((d << 36) || (d >> 28)) ^ ((d << 30) || (d >> 34))) ^ ((d << 25) || (d >> 39))) + ((d && (e || f)) || (e && f)))) ;;
  b <~ (b + (((((((g << 50) || (g >> 14)) ^ ((g << 46) || (g >> 18))) ^ ((g << 23) || (g >> 41))) + (a ^ (g && (h ^ a)))) + 0x81c2c92e47edaee6) + s38)) ;;
  f <~ (f + b) ;;
  b <~ (b + (((((c << 36) || (c >> 28)) ^ ((c << 30) || (c >> 34))) ^ ((c << 25) || (c >> 39))) + ((c && (d || e)) || (d && e)))) ;;
  a <~ (a + (((((((f << 50) || (f >> 14)) ^ ((f << 46) || (f >> 18))) ^ ((f << 23) || (f >> 41))) + (h ^ (f && (g ^ h)))) + 0x92722c851482353b) + s39)) ;;
  e <~ (e + a) ;;
  a <~ (a + (((((b << 36) || (b >> 28)) ^ ((b << 30) || (b >> 34))) ^ ((b << 25) || (b >> 39))) + ((b && (c || d)) || (c && d)))) ;;
  h <~ (h + (((((((e << 50) || (e >> 14)) ^ ((e << 46) || (e >> 18))) ^ ((e << 23) || (e >> 41))) + (g ^ (e && (f ^ g)))) + 0xa2bfe8a14cf10364) + s40)) ;;
  d <~ (d + h) ;;
  h <~ (h + (((((a << 36) || (a >> 28)) ^ ((a << 30) || (a >> 34))) ^ ((a << 25) || (a >> 39))) + ((a && (b || c)) || (b && c)))) ;;
  g <~ (g + (((((((d << 50) || (d >> 14)) ^ ((d << 46) || (d >> 18))) ^ ((d << 23) || (d >> 41))) + (f ^ (d && (e ^ f)))) + 0xa81a664bbc423001) + s41)) ;;
  c <~ (c + g) ;;
  g <~ (g + (((((h << 36) || (h >> 28)) ^ ((h << 30) || (h >> 34))) ^ ((h << 25) || (h >> 39))) + ((h && (a || b)) || (a && b)))) ;;
  f <~ (f + (((((((c << 50) || (c >> 14)) ^ ((c << 46) || (c >> 18))) ^ ((c << 23) || (c >> 41))) + (e ^ (c && (d ^ e)))) + 0xc24b8b70d0f89791) + s42)) ;;
  b <~ (b + f) ;;
  f <~ (f + (((((g << 36) || (g >> 28)) ^ ((g << 30) || (g >> 34))) ^ ((g << 25) || (g >> 39))) + ((g && (h || a)) || (h && a)))) ;;
  e <~ (e + (((((((b << 50) || (b >> 14)) ^ ((b << 46) || (b >> 18))) ^ ((b << 23) || (b >> 41))) + (d ^ (b && (c ^ d)))) + 0xc76c51a30654be30) + s43)) ;;
  a <~ (a + e) ;;
  e <~ (e + (((((f << 36) || (f >> 28)) ^ ((f << 30) || (f >> 34))) ^ ((f << 25) || (f >> 39))) + ((f && (g || h)) || (g && h)))) ;;
  d <~ (d + (((((((a << 50) || (a >> 14)) ^ ((a << 46) || (a >> 18))) ^ ((a << 23) || (a >> 41))) + (c ^ (a && (b ^ c)))) + 0xd192e819d6ef5218) + s44)) ;;
  h <~ (h + d) ;;
  d <~ (d + (((((e << 36) || (e >> 28)) ^ ((e << 30) || (e >> 34))) ^ ((e << 25) || (e >> 39))) + ((e && (f || g)) || (f && g)))) ;;
  c <~ (c + (((((((h << 50) || (h >> 14)) ^ ((h << 46) || (h >> 18))) ^ ((h << 23) || (h >> 41))) + (b ^ (h && (a ^ b)))) + 0xd69906245565a910) + s45)) ;;
  g <~ (g + c) ;;
  c <~ (c + (((((d << 36) || (d >> 28)) ^ ((d << 30) || (d >> 34))) ^ ((d << 25) || (d >> 39))) + ((d && (e || f)) || (e && f)))) ;;
  b <~ (b + (((((((g << 50) || (g >> 14)) ^ ((g << 46) || (g >> 18))) ^ ((g << 23) || (g >> 41))) + (a ^ (g && (h ^ a)))) + 0xf40e35855771202a) + s46)) ;;
  f <~ (f + b) ;;
  b <~ (b + (((((c << 36) || (c >> 28)) ^ ((c << 30) || (c >> 34))) ^ ((c << 25) || (c >> 39))) + ((c && (d || e)) || (d && e)))) ;;
  a <~ (a + (((((((f << 50) || (f >> 14)) ^ ((f << 46) || (f >> 18))) ^ ((f << 23) || (f >> 41))) + (h ^ (f && (g ^ h)))) + 0x106aa07032bbd1b8) + s47)) ;;
  e <~ (e + a) ;;
  a <~ (a + (((((b << 36) || (b >> 28)) ^ ((b << 30) || (b >> 34))) ^ ((b << 25) || (b >> 39))) + ((b && (c || d)) || (c && d)))) ;;
  h <~ (h + (((((((e << 50) || (e >> 14)) ^ ((e << 46) || (e >> 18))) ^ ((e << 23) || (e >> 41))) + (g ^ (e && (f ^ g)))) + 0x19a4c116b8d2d0c8) + s48)) ;;
  d <~ (d + h) ;;
  h <~ (h + (((((a << 36) || (a >> 28)) ^ ((a << 30) || (a >> 34))) ^ ((a << 25) || (a >> 39))) + ((a && (b || c)) || (b && c)))) ;;
  g <~ (g + (((((((d << 50) || (d >> 14)) ^ ((d << 46) || (d >> 18))) ^ ((d << 23) || (d >> 41))) + (f ^ (d && (e ^ f)))) + 0x1e376c085141ab53) + s49)) ;;
  c <~ (c + g) ;;
  g <~ (g + (((((h << 36) || (h >> 28)) ^ ((h << 30) || (h >> 34))) ^ ((h << 25) || (h >> 39))) + ((h && (a || b)) || (a && b)))) ;;
  f <~ (f + (((((((c << 50) || (c >> 14)) ^ ((c << 46) || (c >> 18))) ^ ((c << 23) || (c >> 41))) + (e ^ (c && (d ^ e)))) + 0x2748774cdf8eeb99) + s50)) ;;
  b <~ (b + f) ;;
  f <~ (f + (((((g << 36) || (g >> 28)) ^ ((g << 30) || (g >> 34))) ^ ((g << 25) || (g >> 39))) + ((g && (h || a)) || (h && a)))) ;;
  e <~ (e + (((((((b << 50) || (b >> 14)) ^ ((b << 46) || (b >> 18))) ^ ((b << 23) || (b >> 41))) + (d ^ (b && (c ^ d)))) + 0x34b0bcb5e19b48a8) + s51)) ;;
  a <~ (a + e) ;;
  e <~ (e + (((((f << 36) || (f >> 28)) ^ ((f << 30) || (f >> 34))) ^ ((f << 25) || (f >> 39))) + ((f && (g || h)) || (g && h)))) ;;
  d <~ (d + (((((((a << 50) || (a >> 14)) ^ ((a << 46) || (a >> 18))) ^ ((a << 23) || (a >> 41))) + (c ^ (a && (b ^ c)))) + 0x391c0cb3c5c95a63) + s52)) ;;
  h <~ (h + d) ;;
  d <~ (d + (((((e << 36) || (e >> 28)) ^ ((e << 30) || (e >> 34))) ^ ((e << 25) || (e >> 39))) + ((e && (f || g)) || (f && g)))) ;;
  c <~ (c + (((((((h << 50) || (h >> 14)) ^ ((h << 46) || (h >> 18))) ^ ((h << 23) || (h >> 41))) + (b ^ (h && (a ^ b)))) + 0x4ed8aa4ae3418acb) + s53)) ;;
  g <~ (g + c) ;;
  c <~ (c + (((((d << 36) || (d >> 28)) ^ ((d << 30) || (d >> 34))) ^ ((d << 25) || (d >> 39))) + ((d && (e || f)) || (e && f)))) ;;
  b <~ (b + (((((((g << 50) || (g >> 14)) ^ ((g << 46) || (g >> 18))) ^ ((g << 23) || (g >> 41))) + (a ^ (g && (h ^ a)))) + 0x5b9cca4f7763e373) + s54)) ;;
  f <~ (f + b) ;;
  b <~ (b + (((((c << 36) || (c >> 28)) ^ ((c << 30) || (c >> 34))) ^ ((c << 25) || (c >> 39))) + ((c && (d || e)) || (d && e)))) ;;
  a <~ (a + (((((((f << 50) || (f >> 14)) ^ ((f << 46) || (f >> 18))) ^ ((f << 23) || (f >> 41))) + (h ^ (f && (g ^ h)))) + 0x682e6ff3d6b2b8a3) + s55)) ;;
  e <~ (e + a) ;;
  a <~ (a + (((((b << 36) || (b >> 28)) ^ ((b << 30) || (b >> 34))) ^ ((b << 25) || (b >> 39))) + ((b && (c || d)) || (c && d)))) ;;
  h <~ (h + (((((((e << 50) || (e >> 14)) ^ ((e << 46) || (e >> 18))) ^ ((e << 23) || (e >> 41))) + (g ^ (e && (f ^ g)))) + 0x748f82ee5defb2fc) + s56)) ;;
  d <~ (d + h) ;;
  h <~ (h + (((((a << 36) || (a >> 28)) ^ ((a << 30) || (a >> 34))) ^ ((a << 25) || (a >> 39))) + ((a && (b || c)) || (b && c)))) ;;
  g <~ (g + (((((((d << 50) || (d >> 14)) ^ ((d << 46) || (d >> 18))) ^ ((d << 23) || (d >> 41))) + (f ^ (d && (e ^ f)))) + 0x78a5636f43172f60) + s57)) ;;
  c <~ (c + g) ;;
  g <~ (g + (((((h << 36) || (h >> 28)) ^ ((h << 30) || (h >> 34))) ^ ((h << 25) || (h >> 39))) + ((h && (a || b)) || (a && b)))) ;;
  f <~ (f + (((((((c << 50) || (c >> 14)) ^ ((c << 46) || (c >> 18))) ^ ((c << 23) || (c >> 41))) + (e ^ (c && (d ^ e)))) + 0x84c87814a1f0ab72) + s58)) ;;
  b <~ (b + f) ;;
  f <~ (f + (((((g << 36) || (g >> 28)) ^ ((g << 30) || (g >> 34))) ^ ((g << 25) || (g >> 39))) + ((g && (h || a)) || (h && a)))) ;;
  e <~ (e + (((((((b << 50) || (b >> 14)) ^ ((b << 46) || (b >> 18))) ^ ((b << 23) || (b >> 41))) + (d ^ (b && (c ^ d)))) + 0x8cc702081a6439ec) + s59)) ;;
  a <~ (a + e) ;;
  e <~ (e + (((((f << 36) || (f >> 28)) ^ ((f << 30) || (f >> 34))) ^ ((f << 25) || (f >> 39))) + ((f && (g || h)) || (g && h)))) ;;
  d <~ (d + (((((((a << 50) || (a >> 14)) ^ ((a << 46) || (a >> 18))) ^ ((a << 23) || (a >> 41))) + (c ^ (a && (b ^ c)))) + 0x90befffa23631e28) + s60)) ;;
  h <~ (h + d) ;;
  d <~ (d + (((((e << 36) || (e >> 28)) ^ ((e << 30) || (e >> 34))) ^ ((e << 25) || (e >> 39))) + ((e && (f || g)) || (f && g)))) ;;
  c <~ (c + (((((((h << 50) || (h >> 14)) ^ ((h << 46) || (h >> 18))) ^ ((h << 23) || (h >> 41))) + (b ^ (h && (a ^ b)))) + 0xa4506cebde82bde9) + s61)) ;;
  g <~ (g + c) ;;
  c <~ (c + (((((d << 36) || (d >> 28)) ^ ((d << 30) || (d >> 34))) ^ ((d << 25) || (d >> 39))) + ((d && (e || f)) || (e && f)))) ;;
  b <~ (b + (((((((g << 50) || (g >> 14)) ^ ((g << 46) || (g >> 18))) ^ ((g << 23) || (g >> 41))) + (a ^ (g && (h ^ a)))) + 0xbef9a3f7b2c67915) + s62)) ;;
  f <~ (f + b) ;;
  b <~ (b + (((((c << 36) || (c >> 28)) ^ ((c << 30) || (c >> 34))) ^ ((c << 25) || (c >> 39))) + ((c && (d || e)) || (d && e)))) ;;
  a <~ (a + (((((((f << 50) || (f >> 14)) ^ ((f << 46) || (f >> 18))) ^ ((f << 23) || (f >> 41))) + (h ^ (f && (g ^ h)))) + 0xc67178f2e372532b) + s63)) ;;
  e <~ (e + a) ;;
  a <~ (a + (((((b << 36) || (b >> 28)) ^ ((b << 30) || (b >> 34))) ^ ((b << 25) || (b >> 39))) + ((b && (c || d)) || (c && d)))) ;;
  h <~ (h + (((((((e << 50) || (e >> 14)) ^ ((e << 46) || (e >> 18))) ^ ((e << 23) || (e >> 41))) + (g ^ (e && (f ^ g)))) + 0xca273eceea26619c) + s64)) ;;
  d <~ (d + h) ;;
  h <~ (h + (((((a << 36) || (a >> 28)) ^ ((a << 30) || (a >> 34))) ^ ((a << 25) || (a >> 39))) + ((a && (b || c)) || (b && c)))) ;;
  g <~ (g + (((((((d << 50) || (d >> 14)) ^ ((d << 46) || (d >> 18))) ^ ((d << 23) || (d >> 41))) + (f ^ (d && (e ^ f)))) + 0xd186b8c721c0c207) + s65)) ;;
  c <~ (c + g) ;;
  g <~ (g + (((((h << 36) || (h >> 28)) ^ ((h << 30) || (h >> 34))) ^ ((h << 25) || (h >> 39))) + ((h && (a || b)) || (a && b)))) ;;
  f <~ (f + (((((((c << 50) || (c >> 14)) ^ ((c << 46) || (c >> 18))) ^ ((c << 23) || (c >> 41))) + (e ^ (c && (d ^ e)))) + 0xeada7dd6cde0eb1e) + s66)) ;;
  b <~ (b + f) ;;
  f <~ (f + (((((g << 36) || (g >> 28)) ^ ((g << 30) || (g >> 34))) ^ ((g << 25) || (g >> 39))) + ((g && (h || a)) || (h && a)))) ;;
  e <~ (e + (((((((b << 50) || (b >> 14)) ^ ((b << 46) || (b >> 18))) ^ ((b << 23) || (b >> 41))) + (d ^ (b && (c ^ d)))) + 0xf57d4f7fee6ed178) + s67)) ;;
  a <~ (a + e) ;;
  e <~ (e + (((((f << 36) || (f >> 28)) ^ ((f << 30) || (f >> 34))) ^ ((f << 25) || (f >> 39))) + ((f && (g || h)) || (g && h)))) ;;
  d <~ (d + (((((((a << 50) || (a >> 14)) ^ ((a << 46) || (a >> 18))) ^ ((a << 23) || (a >> 41))) + (c ^ (a && (b ^ c)))) + 0x06f067aa72176fba) + s68)) ;;
  h <~ (h + d) ;;
  d <~ (d + (((((e << 36) || (e >> 28)) ^ ((e << 30) || (e >> 34))) ^ ((e << 25) || (e >> 39))) + ((e && (f || g)) || (f && g)))) ;;
  c <~ (c + (((((((h << 50) || (h >> 14)) ^ ((h << 46) || (h >> 18))) ^ ((h << 23) || (h >> 41))) + (b ^ (h && (a ^ b)))) + 0x0a637dc5a2c898a6) + s69)) ;;
  g <~ (g + c) ;;
  c <~ (c + (((((d << 36) || (d >> 28)) ^ ((d << 30) || (d >> 34))) ^ ((d << 25) || (d >> 39))) + ((d && (e || f)) || (e && f)))) ;;
  b <~ (b + (((((((g << 50) || (g >> 14)) ^ ((g << 46) || (g >> 18))) ^ ((g << 23) || (g >> 41))) + (a ^ (g && (h ^ a)))) + 0x113f9804bef90dae) + s70)) ;;
  f <~ (f + b) ;;
  b <~ (b + (((((c << 36) || (c >> 28)) ^ ((c << 30) || (c >> 34))) ^ ((c << 25) || (c >> 39))) + ((c && (d || e)) || (d && e)))) ;;
  a <~ (a + (((((((f << 50) || (f >> 14)) ^ ((f << 46) || (f >> 18))) ^ ((f << 23) || (f >> 41))) + (h ^ (f && (g ^ h)))) + 0x1b710b35131c471b) + s71)) ;;
  e <~ (e + a) ;;
  a <~ (a + (((((b << 36) || (b >> 28)) ^ ((b << 30) || (b >> 34))) ^ ((b << 25) || (b >> 39))) + ((b && (c || d)) || (c && d)))) ;;
  h <~ (h + (((((((e << 50) || (e >> 14)) ^ ((e << 46) || (e >> 18))) ^ ((e << 23) || (e >> 41))) + (g ^ (e && (f ^ g)))) + 0x28db77f523047d84) + s72)) ;;
  d <~ (d + h) ;;
  h <~ (h + (((((a << 36) || (a >> 28)) ^ ((a << 30) || (a >> 34))) ^ ((a << 25) || (a >> 39))) + ((a && (b || c)) || (b && c)))) ;;
  g <~ (g + (((((((d << 50) || (d >> 14)) ^ ((d << 46) || (d >> 18))) ^ ((d << 23) || (d >> 41))) + (f ^ (d && (e ^ f)))) + 0x32caab7b40c72493) + s73)) ;;
  c <~ (c + g) ;;
  g <~ (g + (((((h << 36) || (h >> 28)) ^ ((h << 30) || (h >> 34))) ^ ((h << 25) || (h >> 39))) + ((h && (a || b)) || (a && b)))) ;;
  f <~ (f + (((((((c << 50) || (c >> 14)) ^ ((c << 46) || (c >> 18))) ^ ((c << 23) || (c >> 41))) + (e ^ (c && (d ^ e)))) + 0x3c9ebe0a15c9bebc) + s74)) ;;
  b <~ (b + f) ;;
  f <~ (f + (((((g << 36) || (g >> 28)) ^ ((g << 30) || (g >> 34))) ^ ((g << 25) || (g >> 39))) + ((g && (h || a)) || (h && a)))) ;;
  e <~ (e + (((((((b << 50) || (b >> 14)) ^ ((b << 46) || (b >> 18))) ^ ((b << 23) || (b >> 41))) + (d ^ (b && (c ^ d)))) + 0x431d67c49c100d4c) + s75)) ;;
  a <~ (a + e) ;;
  e <~ (e + (((((f << 36) || (f >> 28)) ^ ((f << 30) || (f >> 34))) ^ ((f << 25) || (f >> 39))) + ((f && (g || h)) || (g && h)))) ;;
  d <~ (d + (((((((a << 50) || (a >> 14)) ^ ((a << 46) || (a >> 18))) ^ ((a << 23) || (a >> 41))) + (c ^ (a && (b ^ c)))) + 0x4cc5d4becb3e42b6) + s76)) ;;
  h <~ (h + d) ;;
  d <~ (d + (((((e << 36) || (e >> 28)) ^ ((e << 30) || (e >> 34))) ^ ((e << 25) || (e >> 39))) + ((e && (f || g)) || (f && g)))) ;;
  c <~ (c + (((((((h << 50) || (h >> 14)) ^ ((h << 46) || (h >> 18))) ^ ((h << 23) || (h >> 41))) + (b ^ (h && (a ^ b)))) + 0x597f299cfc657e2a) + s77)) ;;
  g <~ (g + c) ;;
  c <~ (c + (((((d << 36) || (d >> 28)) ^ ((d << 30) || (d >> 34))) ^ ((d << 25) || (d >> 39))) + ((d && (e || f)) || (e && f)))) ;;
  b <~ (b + (((((((g << 50) || (g >> 14)) ^ ((g << 46) || (g >> 18))) ^ ((g << 23) || (g >> 41))) + (a ^ (g && (h ^ a)))) + 0x5fcb6fab3ad6faec) + s78)) ;;
  f <~ (f + b) ;;
  b <~ (b + (((((c << 36) || (c >> 28)) ^ ((c << 30) || (c >> 34))) ^ ((c << 25) || (c >> 39))) + ((c && (d || e)) || (d && e)))) ;;
  a <~ (a + (((((((f << 50) || (f >> 14)) ^ ((f << 46) || (f >> 18))) ^ ((f << 23) || (f >> 41))) + (h ^ (f && (g ^ h)))) + 0x6c44198c4a475817) + s79)) ;;
  e <~ (e + a) ;;
  a <~ (a + (((((b << 36) || (b >> 28)) ^ ((b << 30) || (b >> 34))) ^ ((b << 25) || (b >> 39))) + ((b && (c || d)) || (c && d)))) ;;
  (xa + a, xb + b, xc + c, xd + d, xe + e, xf + f, xg + g, xh + h))%w64.

(* ---- collecting the message: the states st of the hashes, lib/crypto/md5.myr:16-24, sha1.myr:16-23, sha256.myr:24-28,
   124-128, sha512.myr:25-35 and sha3.myr:4-26.  x is the chaining value. ---- *)
Record hst (X : Type) := mkst { x : X; tail : list N; msglen : N }.
Arguments mkst {X}. Arguments x {X}. Arguments tail {X}. Arguments msglen {X}.
(* hinit, lib/crypto/md5.myr:52-58, sha1.myr:52-59, sha256.myr:78-88, 138-148, sha512.myr:86-96, 140-150; keccak224init and
   the like, sha3.myr:59-62, 87-90, 115-118, 137-140.  tail keeps whatever is there. *)
Definition hinit {X} (x0 : X) (st : hst X) : hst X := mkst x0 (tail st) 0.
(* std.slcp(t[lo:hi], s), lib/std/slcp.myr:9-12 *)
Definition slcp (t : list N) (lo hi : nat) (s : list N) : option (list N) :=
  if ((lo <=? hi) && (hi <=? length t) && (hi - lo =? length s))%nat then Some (firstn lo t ++ s ++ skipn hi t) else None.
Section adding.
  Context {X : Type} (B : nat) (step : X -> list N -> X).
  (* while data.len >= B, lib/crypto/md5.myr:74-77 and the same loop in the other files; the fuel is the length of data *)
  Fixpoint blocks (fuel : nat) (x : X) (data : list N) : option (X * list N) :=
    if (B <=? length data)%nat then
      match fuel with O => None | S fuel => blocks fuel (step x (firstn B data)) (skipn B data) end
    else Some (x, data).
  (* hadd, lib/crypto/md5.myr:60-79, sha1.myr:61-82, sha256.myr:90-112, 150-172, sha512.myr:98-120, 152-174; keccak with
     keccak224add and the like, sha3.myr:179-202, 64-66.  bymod tells whether the rest is copied to tail[:msglen % B], as in
     sha256.myr and sha512.myr, or to tail[:data.len].  msglen is a uint64; in sha3.myr it is a std.size, which is the same for
     messages of fewer than 2^63 bytes. *)
  Definition hadd (bymod : bool) (st : hst X) (data : list N) : option (hst X) :=
    let ntail := N.to_nat (msglen st mod N.of_nat B) in
    let len := (msglen st + N.of_nat (length data)) mod 2 ^ 64 in
    let rest (x : X) (t data : list N) :=
      match blocks (length data) x data with
      | None => None
      | Some (x, data) =>
          match slcp t 0 (if bymod then N.to_nat (len mod N.of_nat B) else length data) data with
          | Some t => Some (mkst x t len)
          | None => None
          end
      end in
    if (0 <? ntail)%nat then
      let n := Nat.min (B - ntail) (length data) in
      match slcp (tail st) ntail (ntail + n) (firstn n data) with
      | None => None
      | Some t =>
          let data := skipn n data in
          if (n + ntail <? B)%nat then Some (mkst (x st) t len)
          else rest (step (x st) t) t data
      end
    else rest (x st) (tail st) data.
  (* t[i], t[i+1], ... = l, and std.slfill(t[n:], 0) *)
  Definition setat (t : list N) (i : nat) (l : list N) : list N := firstn i t ++ l ++ skipn (i + length l) t.
  Definition fill (t : list N) (n : nat) : list N := firstn n t ++ repeat 0 (length t - n).
  (* tail, lib/crypto/sha256.myr:188-210, sha512.myr:189-211, and the first half of hfin, md5.myr:81-105, sha1.myr:84-109.
     lim is 8 or 16; size gives the last eight bytes. *)
  Definition lastblocks (lim : nat) (size : N -> list N) (st : hst X) : hst X :=
    let ntail := N.to_nat (msglen st mod N.of_nat B) in
    let t := setat (tail st) ntail [0x80] in
    let ntail := (ntail + 1)%nat in
    let t := fill t ntail in
    let '(x, t) := if (B - ntail <? lim)%nat then (step (x st) t, fill t 0) else (x st, t) in
    let t := setat t (B - 8) (size (msglen st)) in
    mkst (step x t) t (msglen st).
End adding.
(* the bytes 56 to 63 of the tail, lib/crypto/md5.myr:93-101 *)
Definition size_le (msglen : N) : list N :=
  let v := (msglen * 8) mod 2 ^ 64 in
  [tobyte (N.shiftr v 0); tobyte (N.shiftr v 8); tobyte (N.shiftr v 16); tobyte (N.shiftr v 24);
   tobyte (N.shiftr v 32); tobyte (N.shiftr v 40); tobyte (N.shiftr v 48); tobyte (N.shiftr v 56)].
(* the bytes 56 to 63, or 120 to 127, lib/crypto/sha1.myr:97-105, sha256.myr:200-208, sha512.myr:201-209 *)
Definition size_be (msglen : N) : list N :=
  let v := (msglen * 8) mod 2 ^ 64 in
  [tobyte (N.shiftr v 56); tobyte (N.shiftr v 48); tobyte (N.shiftr v 40); tobyte (N.shiftr v 32);
   tobyte (N.shiftr v 24); tobyte (N.shiftr v 16); tobyte (N.shiftr v 8); tobyte (N.shiftr v 0)].
(* hfin writes the digest d at the start of r, md5.myr:107-123, sha1.myr:111-131, sha256.myr:117-124, 177-183,
   sha512.myr:125-132, 179-184; it aborts if r is shorter *)
Definition putdigest (d r : list N) : option (list N) :=
  if (length d <=? length r)%nat then Some (d ++ skipn (length d) r) else None.
Definition digest_md5 (s : N * N * N * N) : list N :=
  let '(a, b, c, d) := s in
  [tobyte (N.shiftr a 0); tobyte (N.shiftr a 8); tobyte (N.shiftr a 16); tobyte (N.shiftr a 24);
   tobyte (N.shiftr b 0); tobyte (N.shiftr b 8); tobyte (N.shiftr b 16); tobyte (N.shiftr b 24);
   tobyte (N.shiftr c 0); tobyte (N.shiftr c 8); tobyte (N.shiftr c 16); tobyte (N.shiftr c 24);
   tobyte (N.shiftr d 0); tobyte (N.shiftr d 8); tobyte (N.shiftr d 16); tobyte (N.shiftr d 24)].
Definition digest_sha1 (s : N * N * N * N * N) : list N :=
  let '(a, b, c, d, e) := s in
  [tobyte (N.shiftr a 24); tobyte (N.shiftr a 16); tobyte (N.shiftr a 8); tobyte (N.shiftr a 0);
   tobyte (N.shiftr b 24); tobyte (N.shiftr b 16); tobyte (N.shiftr b 8); tobyte (N.shiftr b 0);
   tobyte (N.shiftr c 24); tobyte (N.shiftr c 16); tobyte (N.shiftr c 8); tobyte (N.shiftr c 0);
   tobyte (N.shiftr d 24); tobyte (N.shiftr d 16); tobyte (N.shiftr d 8); tobyte (N.shiftr d 0);
   tobyte (N.shiftr e 24); tobyte (N.shiftr e 16); tobyte (N.shiftr e 8); tobyte (N.shiftr e 0)].
Definition digest_sha256 (s : N * N * N * N * N * N * N * N) : list N :=
  let '(a, b, c, d, e, f, g, h) := s in
  pack_sha256 a ++ pack_sha256 b ++ pack_sha256 c ++ pack_sha256 d ++ pack_sha256 e ++ pack_sha256 f ++ pack_sha256 g ++ pack_sha256 h.
Definition digest_sha224 (s : N * N * N * N * N * N * N * N) : list N :=
  let '(a, b, c, d, e, f, g, h) := s in
  pack_sha256 a ++ pack_sha256 b ++ pack_sha256 c ++ pack_sha256 d ++ pack_sha256 e ++ pack_sha256 f ++ pack_sha256 g.
Definition digest_sha512 (s : N * N * N * N * N * N * N * N) : list N :=
  let '(a, b, c, d, e, f, g, h) := s in
  pack_sha512 a ++ pack_sha512 b ++ pack_sha512 c ++ pack_sha512 d ++ pack_sha512 e ++ pack_sha512 f ++ pack_sha512 g ++ pack_sha512 h.
Definition digest_sha384 (s : N * N * N * N * N * N * N * N) : list N :=
  let '(a, b, c, d, e, f, g, h) := s in
  pack_sha512 a ++ pack_sha512 b ++ pack_sha512 c ++ pack_sha512 d ++ pack_sha512 e ++ pack_sha512 f.
(* an implementation of the trait hash, lib/crypto/hash.myr:4-11 *)
Record impl := mkimpl {
  val : Type;
  Blocksz : nat;
  Hashsz : nat;
  init : hst val -> hst val;
  addto : hst val -> list N -> option (hst val);
  fin : hst val -> list N -> option (hst val * list N) }.
Definition mkhash {X} (B hsz : nat) (x0 : X) (step : X -> list N -> X) (bymod : bool) (lim : nat) (size : N -> list N) (digest : X -> list N) : impl :=
  mkimpl X B hsz (hinit x0) (hadd B step bymod)
    (fun st r => let st := lastblocks B step lim size st in option_map (pair st) (putdigest (digest (x st)) r)).
(* impl hash md5, lib/crypto/md5.myr:48-121 *)
Definition md5 : impl := mkhash 64 16 (0x67452301, 0xefcdab89, 0x98badcfe, 0x10325476) step_md5 false 8 size_le digest_md5.
(* impl hash sha1, lib/crypto/sha1.myr:48-129 *)
Definition sha1 : impl := mkhash 64 20 (0x67452301, 0xefcdab89, 0x98badcfe, 0x10325476, 0xc3d2e1f0) step_sha1 false 8 size_be digest_sha1.
(* impl hash sha256, lib/crypto/sha256.myr:74-126 *)
Definition sha256 : impl :=
  mkhash 64 32 (0x6a09e667, 0xbb67ae85, 0x3c6ef372, 0xa54ff53a, 0x510e527f, 0x9b05688c, 0x1f83d9ab, 0x5be0cd19) step_sha256 true 8 size_be digest_sha256.
(* impl hash sha224, lib/crypto/sha256.myr:134-185 *)
Definition sha224 : impl :=
  mkhash 64 28 (0xc1059ed8, 0x367cd507, 0x3070dd17, 0xf70e5939, 0xffc00b31, 0x68581511, 0x64f98fa7, 0xbefa4fa4) step_sha256 true 8 size_be digest_sha224.
(* impl hash sha512, lib/crypto/sha512.myr:82-134 *)
Definition sha512 : impl :=
  mkhash 128 64 (0x6a09e667f3bcc908, 0xbb67ae8584caa73b, 0x3c6ef372fe94f82b, 0xa54ff53a5f1d36f1,
                 0x510e527fade682d1, 0x9b05688c2b3e6c1f, 0x1f83d9abfb41bd6b, 0x5be0cd19137e2179) step_sha512 true 16 size_be digest_sha512.
(* impl hash sha384, lib/crypto/sha512.myr:136-186 *)
Definition sha384 : impl :=
  mkhash 128 48 (0xCBBB9D5DC1059ED8, 0x629A292A367CD507, 0x9159015A3070DD17, 0x152FECD8F70E5939,
                 0x67332667FFC00B31, 0x8EB44A8768581511, 0xDB0C2E0D64F98FA7, 0x47B5481DBEFA4FA4) step_sha512 true 16 size_be digest_sha384.
(* a message given in pieces *)
Fixpoint addall (h : impl) (st : hst (val h)) (pieces : list (list N)) : option (hst (val h)) :=
  match pieces with [] => Some st | p :: ps => match addto h st p with Some st => addall h st ps | None => None end end.
(* md5init, md5add any number of times and md5fin, lib/crypto/md5.myr:33-46, and the same for the others; st is what the
   state holds before md5init *)
Definition hashpieces (h : impl) (st : hst (val h)) (pieces : list (list N)) (r : list N) : option (list N) :=
  match addall h (init h st) pieces with None => None | Some st => option_map snd (fin h st r) end.

(* ---- lib/crypto/hmac.myr ---- *)
Record hmacst (h : impl) := mkhmac { inner : hst (val h); outer : hst (val h) }.
Arguments mkhmac {h}. Arguments inner {h}. Arguments outer {h}.
(* hmacinit, lib/crypto/hmac.myr:40-65; the arrays k, ik and ok as far as blksz *)
Definition hmacinit (h : impl) (hm : hmacst h) (key : list N) : option (hmacst h) :=
  let k := repeat 0 (Blocksz h) in
  match (if (Blocksz h <? length key)%nat then
           match addto h (init h (inner hm)) key with
           | None => None
           | Some i => match fin h i (firstn (Hashsz h) k) with Some (i, d) => Some (i, d ++ skipn (Hashsz h) k) | None => None end
           end
         else option_map (pair (inner hm)) (slcp k 0 (length key) key)) with
  | None => None
  | Some (i, k) =>
      let ik := map (fun b => N.lxor b 0x36) k in
      let ok := map (fun b => N.lxor b 0x5c) k in
      match addto h (init h i) ik, addto h (init h (outer hm)) ok with Some i, Some o => Some (mkhmac i o) | _, _ => None end
  end.
(* hmacadd, lib/crypto/hmac.myr:68-70 *)
Definition hmacadd (h : impl) (hm : hmacst h) (msg : list N) : option (hmacst h) :=
  option_map (fun i => mkhmac i (outer hm)) (addto h (inner hm) msg).
(* hmacfin, lib/crypto/hmac.myr:72-76; dst is read and written *)
Definition hmacfin (h : impl) (hm : hmacst h) (dst : list N) : option (list N) :=
  match fin h (inner hm) dst with
  | None => None
  | Some (_, dst) => match addto h (outer hm) dst with None => None | Some o => option_map snd (fin h o dst) end
  end.
Fixpoint hmacaddall (h : impl) (hm : hmacst h) (pieces : list (list N)) : option (hmacst h) :=
  match pieces with [] => Some hm | p :: ps => match hmacadd h hm p with Some hm => hmacaddall h hm ps | None => None end end.
Definition hmacpieces (h : impl) (hm : hmacst h) (key : list N) (pieces : list (list N)) (dst : list N) : option (list N) :=
  match hmacinit h hm key with
  | None => None
  | Some hm => match hmacaddall h hm pieces with None => None | Some hm => hmacfin h hm dst end
  end.

(* ---- lib/crypto/sha3.myr ---- *)

(* theta and rho of one round of keccakf, lib/crypto/sha3.myr:209-279, statement by statement; the array is a list of
   its 25 words *)
Definition thetarho (x : list N) : list N :=
  match x with
  | [x0; x1; x2; x3; x4; x5; x6; x7; x8; x9; x10; x11; x12; x13; x14; x15; x16; x17; x18; x19; x20; x21; x22; x23; x24] => (
  bc0 <~ ((((x0 ^ x5) ^ x10) ^ x15) ^ x20) ;;
  bc1 <~ ((((x1 ^ x6) ^ x11) ^ x16) ^ x21) ;;
  bc2 <~ ((((x2 ^ x7) ^ x12) ^ x17) ^ x22) ;;
  bc3 <~ ((((x3 ^ x8) ^ x13) ^ x18) ^ x23) ;;
  bc4 <~ ((((x4 ^ x9) ^ x14) ^ x19) ^ x24) ;;
  t0 <~ (bc4 ^ ((bc1 << 1) || (bc1 >> 63))) ;;
  t1 <~ (bc0 ^ ((bc2 << 1) || (bc2 >> 63))) ;;
  t2 <~ (bc1 ^ ((bc3 << 1) || (bc3 >> 63))) ;;
  t3 <~ (bc2 ^ ((bc4 << 1) || (bc4 >> 63))) ;;
  t4 <~ (bc3 ^ ((bc0 << 1) || (bc0 >> 63))) ;;
  x0 <~ (x0 ^ t0) ;;
  x5 <~ (x5 ^ t0) ;;
  x10 <~ (x10 ^ t0) ;;
  x15 <~ (x15 ^ t0) ;;
  x20 <~ (x20 ^ t0) ;;
  x1 <~ (x1 ^ t1) ;;
  x6 <~ (x6 ^ t1) ;;
  x11 <~ (x11 ^ t1) ;;
  x16 <~ (x16 ^ t1) ;;
  x21 <~ (x21 ^ t1) ;;
  x2 <~ (x2 ^ t2) ;;
  x7 <~ (x7 ^ t2) ;;
  x12 <~ (x12 ^ t2) ;;
  x17 <~ (x17 ^ t2) ;;
  x22 <~ (x22 ^ t2) ;;
  x3 <~ (x3 ^ t3) ;;
  x8 <~ (x8 ^ t3) ;;
  x13 <~ (x13 ^ t3) ;;
  x18 <~ (x18 ^ t3) ;;
  x23 <~ (x23 ^ t3) ;;
  x4 <~ (x4 ^ t4) ;;
  x9 <~ (x9 ^ t4) ;;
  x14 <~ (x14 ^ t4) ;;
  x19 <~ (x19 ^ t4) ;;
  x24 <~ (x24 ^ t4) ;;
  t0 <~ x1 ;;
  t1 <~ x10 ;;
  x10 <~ ((t0 << 1) || (t0 >> 63)) ;;
  t0 <~ t1 ;;
  t1 <~ x7 ;;
  x7 <~ ((t0 << 3) || (t0 >> 61)) ;;
  t0 <~ t1 ;;
  t1 <~ x11 ;;
  x11 <~ ((t0 << 6) || (t0 >> 58)) ;;
  t0 <~ t1 ;;
  t1 <~ x17 ;;
  x17 <~ ((t0 << 10) || (t0 >> 54)) ;;
  t0 <~ t1 ;;
  t1 <~ x18 ;;
  x18 <~ ((t0 << 15) || (t0 >> 49)) ;;
  t0 <~ t1 ;;
  t1 <~ x3 ;;
  x3 <~ ((t0 << 21) || (t0 >> 43)) ;;
  t0 <~ t1 ;;
  t1 <~ x5 ;;
  x5 <~ ((t0 << 28) || (t0 >> 36)) ;;
  t0 <~ t1 ;;
  t1 <~ x16 ;;
  x16 <~ ((t0 << 36) || (t0 >> 28)) ;;
  t0 <~ t1 ;;
  t1 <~ x8 ;;
  x8 <~ ((t0 << 45) || (t0 >> 19)) ;;
  t0 <~ t1 ;;
  t1 <~ x21 ;;
  x21 <~ ((t0 << 55) || (t0 >> 9)) ;;
  t0 <~ t1 ;;
  t1 <~ x24 ;;
  x24 <~ ((t0 << 2) || (t0 >> 62)) ;;
  t0 <~ t1 ;;
  t1 <~ x4 ;;
  x4 <~ ((t0 << 14) || (t0 >> 50)) ;;
  t0 <~ t1 ;;
  t1 <~ x15 ;;
  x15 <~ ((t0 << 27) || (t0 >> 37)) ;;
  t0 <~ t1 ;;
  t1 <~ x23 ;;
  x23 <~ ((t0 << 41) || (t0 >> 23)) ;;
  t0 <~ t1 ;;
  t1 <~ x19 ;;
  x19 <~ ((t0 << 56) || (t0 >> 8)) ;;
  t0 <~ t1 ;;
  t1 <~ x13 ;;
  x13 <~ ((t0 << 8) || (t0 >> 56)) ;;
  t0 <~ t1 ;;
  t1 <~ x12 ;;
  x12 <~ ((t0 << 25) || (t0 >> 39)) ;;
  t0 <~ t1 ;;
  t1 <~ x2 ;;
  x2 <~ ((t0 << 43) || (t0 >> 21)) ;;
  t0 <~ t1 ;;
  t1 <~ x20 ;;
  x20 <~ ((t0 << 62) || (t0 >> 2)) ;;
  t0 <~ t1 ;;
  t1 <~ x14 ;;
  x14 <~ ((t0 << 18) || (t0 >> 46)) ;;
  t0 <~ t1 ;;
  t1 <~ x22 ;;
  x22 <~ ((t0 << 39) || (t0 >> 25)) ;;
  t0 <~ t1 ;;
  t1 <~ x9 ;;
  x9 <~ ((t0 << 61) || (t0 >> 3)) ;;
  t0 <~ t1 ;;
  t1 <~ x6 ;;
  x6 <~ ((t0 << 20) || (t0 >> 44)) ;;
  t0 <~ t1 ;;
  t1 <~ x1 ;;
  x1 <~ ((t0 << 44) || (t0 >> 20)) ;;
  t0 <~ t1 ;;
  [x0; x1; x2; x3; x4; x5; x6; x7; x8; x9; x10; x11; x12; x13; x14; x15; x16; x17; x18; x19; x20; x21; x22; x23; x24])%w64
  | _ => x
  end.
(* the body of the loop for chi, lib/crypto/sha3.myr:282-291, on x[i+0] to x[i+4] *)
Definition chirow (x0 x1 x2 x3 x4 : N) : list N := (
  bc0 <~ x0 ;;
  bc1 <~ x1 ;;
  bc2 <~ x2 ;;
  bc3 <~ x3 ;;
  bc4 <~ x4 ;;
  x0 <~ (x0 ^ ((~ bc1) && bc2)) ;;
  x1 <~ (x1 ^ ((~ bc2) && bc3)) ;;
  x2 <~ (x2 ^ ((~ bc3) && bc4)) ;;
  x3 <~ (x3 ^ ((~ bc4) && bc0)) ;;
  x4 <~ (x4 ^ ((~ bc0) && bc1)) ;;
  [x0; x1; x2; x3; x4])%w64.
(* rconst, lib/crypto/sha3.myr:330-339 *)
Definition rconst : list N := [0x0000000000000001; 0x0000000000008082; 0x800000000000808a; 0x8000000080008000; 0x000000000000808b; 0x0000000080000001; 0x8000000080008081; 0x8000000000008009; 0x000000000000008a; 0x0000000000000088; 0x0000000080008009; 0x000000008000000a; 0x000000008000808b; 0x800000000000008b; 0x8000000000008089; 0x8000000000008003; 0x8000000000008002; 0x8000000000000080; 0x000000000000800a; 0x800000008000000a; 0x8000000080008081; 0x8000000000008080; 0x0000000080000001; 0x8000000080008008].
(* the loop for chi, lib/crypto/sha3.myr:281-292 *)
Definition chiloop (x : list N) : list N :=
  match x with
  | [x0; x1; x2; x3; x4; x5; x6; x7; x8; x9; x10; x11; x12; x13; x14; x15; x16; x17; x18; x19; x20; x21; x22; x23; x24] =>
      chirow x0 x1 x2 x3 x4 ++ chirow x5 x6 x7 x8 x9 ++ chirow x10 x11 x12 x13 x14 ++ chirow x15 x16 x17 x18 x19 ++ chirow x20 x21 x22 x23 x24
  | _ => x
  end.
(* keccakf, lib/crypto/sha3.myr:204-297 *)
Definition keccakround (x : list N) (round : nat) : list N :=
  match chiloop (thetarho x) with x0 :: xs => N.lxor x0 (idx rconst round) :: xs | [] => [] end.
Definition keccakf (x : list N) : list N := fold_left keccakround (seq 0 24) x.
(* addblock, lib/crypto/sha3.myr:300-328: words 0 to 8, 12, 16 or 17; std.getle64 is lib/std/endian.myr (C33) *)
Definition getle64 (b : list N) : N := fold_right (fun b v => b + 256 * v) 0 b.
Definition addwords (lo hi : nat) (x buf : list N) : list N :=
  map (fun i => if ((lo <=? i) && (i <? hi))%nat then N.lxor (idx x i) (getle64 (slice buf (8 * i) (8 * i + 8))) else idx x i) (seq 0 (length x)).
Definition addblock (x buf : list N) : list N :=
  let x := addwords 0 9 x buf in
  if (length buf <=? 72)%nat then x else
  let x := addwords 9 13 x buf in
  if (length buf <=? 104)%nat then x else
  let x := addwords 13 17 x buf in
  if (length buf <=? 136)%nat then x else addwords 17 18 x buf.
Definition step_keccak (x buf : list N) : list N := keccakf (addblock x buf).
(* fin, lib/crypto/sha3.myr:168-177 *)
Definition keccakfin (B : nat) (st : hst (list N)) : hst (list N) :=
  let ntail := N.to_nat (msglen st mod N.of_nat B) in
  let t := fill (tail st) ntail in
  let t := setat t ntail [N.lor (idx t ntail) 0x01] in
  let t := setat t (length t - 1) [N.lor (idx t (length t - 1)) 0x80] in
  mkst (step_keccak (x st) t) t (msglen st).
(* keccak224fin, keccak256fin, keccak384fin, keccak512fin, lib/crypto/sha3.myr:68-77, 96-105, 124-135, 153-166; std.putle64 and
   putle32 are lib/std/endian.myr (C33) *)
Definition putle (n : nat) (v : N) : list N := map (fun i => tobyte (N.shiftr v (8 * N.of_nat i))) (seq 0 n).
Definition digest_keccak224 (x : list N) : list N := putle 8 (idx x 0) ++ putle 8 (idx x 1) ++ putle 8 (idx x 2) ++ putle 4 (idx x 3).
Definition digest_keccak256 (x : list N) : list N := concat (map (fun i => putle 8 (idx x i)) (seq 0 4)).
Definition digest_keccak384 (x : list N) : list N := concat (map (fun i => putle 8 (idx x i)) (seq 0 6)).
Definition digest_keccak512 (x : list N) : list N := concat (map (fun i => putle 8 (idx x i)) (seq 0 8)).
Definition mkkeccak (B hsz : nat) (digest : list N -> list N) : impl :=
  mkimpl (list N) B hsz (hinit (repeat 0 25)) (hadd B step_keccak false)
    (fun st r => let st := keccakfin B st in option_map (pair st) (putdigest (digest (x st)) r)).
Definition keccak224 : impl := mkkeccak 144 28 digest_keccak224.
Definition keccak256 : impl := mkkeccak 136 32 digest_keccak256.
Definition keccak384 : impl := mkkeccak 104 48 digest_keccak384.
Definition keccak512 : impl := mkkeccak 72 64 digest_keccak512.
