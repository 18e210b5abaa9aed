(* Model of lib/crypto/chacha20.myr (C95, C96).  A word is a number below 2^32, a buffer a list of bytes; the state is the
   list of its 16 words. *)
From Verif Require Import Base ListX Hash_Model.
From Coq Require Import NArith.
Open Scope N_scope.

Definition getle32 (b : list N) : N := fold_right (fun b v => b + 256 * v) 0 b.
(* sigma and tau, lib/crypto/chacha20.myr:13-14: expand 32-byte k, expand 16-byte k *)
Definition sigma : list N := [101; 120; 112; 97; 110; 100; 32; 51; 50; 45; 98; 121; 116; 101; 32; 107].
Definition tau : list N := [101; 120; 112; 97; 110; 100; 32; 49; 54; 45; 98; 121; 116; 101; 32; 107].
(* chacha20keysetup, lib/crypto/chacha20.myr:16-39; a key shorter than 16 bytes aborts in the slices, one of another length in die *)
Definition keysetup (x k : list N) : option (list N) :=
  if (length k <? 16)%nat then None else
  let x := setat x 4 [getle32 (slice k 0 4); getle32 (slice k 4 8); getle32 (slice k 8 12); getle32 (slice k 12 16)] in
  let rest (k constants : list N) :=
    let x := setat x 8 [getle32 (slice k 0 4); getle32 (slice k 4 8); getle32 (slice k 8 12); getle32 (slice k 12 16)] in
    setat x 0 [getle32 (slice constants 0 4); getle32 (slice constants 4 8); getle32 (slice constants 8 12); getle32 (slice constants 12 16)] in
  if (length k * 8 =? 256)%nat then Some (rest (skipn 16 k) sigma)
  else if (length k * 8 =? 128)%nat then Some (rest k tau)
  else None.
(* chacha20ivsetup, lib/crypto/chacha20.myr:41-46 *)
Definition ivsetup (x iv : list N) : option (list N) :=
  if (length iv <? 8)%nat then None else Some (setat x 12 [0; 0; getle32 (slice iv 0 4); getle32 (slice iv 4 8)]).
(* the body of the loop for the rounds, lib/crypto/chacha20.myr:93-165, statement by statement *)
Definition roundpair (x : list N) : list N :=
  match x with
  | [x0; x1; x2; x3; x4; x5; x6; x7; x8; x9; x10; x11; x12; x13; x14; x15] => (
  x0 <~ (x0 + x4) ;;
  x12 <~ (((x12 ^ x0) << 16) || ((x12 ^ x0) >> 16)) ;;
  x8 <~ (x8 + x12) ;;
  x4 <~ (((x4 ^ x8) << 12) || ((x4 ^ x8) >> 20)) ;;
  x0 <~ (x0 + x4) ;;
  x12 <~ (((x12 ^ x0) << 8) || ((x12 ^ x0) >> 24)) ;;
  x8 <~ (x8 + x12) ;;
  x4 <~ (((x4 ^ x8) << 7) || ((x4 ^ x8) >> 25)) ;;
  x1 <~ (x1 + x5) ;;
  x13 <~ (((x13 ^ x1) << 16) || ((x13 ^ x1) >> 16)) ;;
  x9 <~ (x9 + x13) ;;
  x5 <~ (((x5 ^ x9) << 12) || ((x5 ^ x9) >> 20)) ;;
  x1 <~ (x1 + x5) ;;
  x13 <~ (((x13 ^ x1) << 8) || ((x13 ^ x1) >> 24)) ;;
  x9 <~ (x9 + x13) ;;
  x5 <~ (((x5 ^ x9) << 7) || ((x5 ^ x9) >> 25)) ;;
  x2 <~ (x2 + x6) ;;
  x14 <~ (((x14 ^ x2) << 16) || ((x14 ^ x2) >> 16)) ;;
  x10 <~ (x10 + x14) ;;
  x6 <~ (((x6 ^ x10) << 12) || ((x6 ^ x10) >> 20)) ;;
  x2 <~ (x2 + x6) ;;
  x14 <~ (((x14 ^ x2) << 8) || ((x14 ^ x2) >> 24)) ;;
  x10 <~ (x10 + x14) ;;
  x6 <~ (((x6 ^ x10) << 7) || ((x6 ^ x10) >> 25)) ;;
  x3 <~ (x3 + x7) ;;
  x15 <~ (((x15 ^ x3) << 16) || ((x15 ^ x3) >> 16)) ;;
  x11 <~ (x11 + x15) ;;
  x7 <~ (((x7 ^ x11) << 12) || ((x7 ^ x11) >> 20)) ;;
  x3 <~ (x3 + x7) ;;
  x15 <~ (((x15 ^ x3) << 8) || ((x15 ^ x3) >> 24)) ;;
  x11 <~ (x11 + x15) ;;
  x7 <~ (((x7 ^ x11) << 7) || ((x7 ^ x11) >> 25)) ;;
  x0 <~ (x0 + x5) ;;
  x15 <~ (((x15 ^ x0) << 16) || ((x15 ^ x0) >> 16)) ;;
  x10 <~ (x10 + x15) ;;
  x5 <~ (((x5 ^ x10) << 12) || ((x5 ^ x10) >> 20)) ;;
  x0 <~ (x0 + x5) ;;
  x15 <~ (((x15 ^ x0) << 8) || ((x15 ^ x0) >> 24)) ;;
  x10 <~ (x10 + x15) ;;
  x5 <~ (((x5 ^ x10) << 7) || ((x5 ^ x10) >> 25)) ;;
  x1 <~ (x1 + x6) ;;
  x12 <~ (((x12 ^ x1) << 16) || ((x12 ^ x1) >> 16)) ;;
  x11 <~ (x11 + x12) ;;
  x6 <~ (((x6 ^ x11) << 12) || ((x6 ^ x11) >> 20)) ;;
  x1 <~ (x1 + x6) ;;
  x12 <~ (((x12 ^ x1) << 8) || ((x12 ^ x1) >> 24)) ;;
  x11 <~ (x11 + x12) ;;
  x6 <~ (((x6 ^ x11) << 7) || ((x6 ^ x11) >> 25)) ;;
  x2 <~ (x2 + x7) ;;
  x13 <~ (((x13 ^ x2) << 16) || ((x13 ^ x2) >> 16)) ;;
  x8 <~ (x8 + x13) ;;
  x7 <~ (((x7 ^ x8) << 12) || ((x7 ^ x8) >> 20)) ;;
  x2 <~ (x2 + x7) ;;
  x13 <~ (((x13 ^ x2) << 8) || ((x13 ^ x2) >> 24)) ;;
  x8 <~ (x8 + x13) ;;
  x7 <~ (((x7 ^ x8) << 7) || ((x7 ^ x8) >> 25)) ;;
  x3 <~ (x3 + x4) ;;
  x14 <~ (((x14 ^ x3) << 16) || ((x14 ^ x3) >> 16)) ;;
  x9 <~ (x9 + x14) ;;
  x4 <~ (((x4 ^ x9) << 12) || ((x4 ^ x9) >> 20)) ;;
  x3 <~ (x3 + x4) ;;
  x14 <~ (((x14 ^ x3) << 8) || ((x14 ^ x3) >> 24)) ;;
  x9 <~ (x9 + x14) ;;
  x4 <~ (((x4 ^ x9) << 7) || ((x4 ^ x9) >> 25)) ;;
  [x0; x1; x2; x3; x4; x5; x6; x7; x8; x9; x10; x11; x12; x13; x14; x15])%w32
  | _ => x
  end.
(* for var i = 20; i > 0; i -= 2, lib/crypto/chacha20.myr:92 *)
Fixpoint rounds (fuel i : nat) (x : list N) : list N :=
  match fuel with O => x | S fuel => if (0 <? i)%nat then rounds fuel (i - 2) (roundpair x) else x end.
(* x0 = j0 to x0 = x0 + j0 and the like, lib/crypto/chacha20.myr:75-182 *)
Definition core (j : list N) : list N := let x := rounds 20 20 j in map (fun i => add 32 (idx x i) (idx j i)) (seq 0 16).
(* x0 = x0 ^ std.getle32(m[0:4]) and the like, then std.putle32(c[0:4], x0) and the like, lib/crypto/chacha20.myr:184-222 *)
Definition xorwords (x m : list N) : list N := map (fun i => N.lxor (idx x i) (getle32 (slice m (4 * i) (4 * i + 4)))) (seq 0 16).
Definition putwords (c x : list N) : list N := setat c 0 (concat (map (putle 4) x)).
(* j12++ and j13++, lib/crypto/chacha20.myr:201-204 *)
Definition count (j : list N) : list N :=
  let j12 := add 32 (idx j 12) 1 in
  let j13 := if j12 =? 0 then add 32 (idx j 13) 1 else idx j 13 in
  setat j 12 [j12; j13].
(* while true, lib/crypto/chacha20.myr:67-236; tmp is the array, c the part of the output not yet written.  The result is
   the words j and what c holds afterwards; m and c are apart in memory. *)
Fixpoint encloop (fuel : nat) (tmp j m c : list N) : option (list N * list N) :=
  match fuel with
  | O => None
  | S fuel =>
      let short := (length m <? 64)%nat in
      let tmp := if short then setat tmp 0 m else tmp in
      let m' := if short then tmp else m in
      let x := xorwords (core j) m' in
      let j := count j in
      let tmp := if short then putwords tmp x else tmp in
      let c := if short then c else putwords c x in
      if (length m' <=? 64)%nat then
        let ctarget := if (length m' <? 64)%nat then setat c 0 (firstn (length m') tmp) else c in
        Some (j, ctarget)
      else option_map (fun '(j, rest) => (j, firstn 64 c ++ rest)) (encloop fuel tmp j (skipn 64 m) (skipn 64 c))
  end.
(* chacha20encrypt, lib/crypto/chacha20.myr:49-239; junk is what the array tmp holds at first *)
Definition encrypt (junk x m c : list N) : option (list N * list N) :=
  if (length m =? length c)%nat then
    match encloop (S (length m)) junk x m c with
    | Some (j, c) => Some (setat x 12 [idx j 12; idx j 13], c)
    | None => None
    end
  else None.
