(* Model of lib/std/ipparse.myr (C106, C107).  t is the integer type at which num reads its numbers; the theorems hold for
   every one that can hold the bounds. *)
From Verif Require Import Base ListX Word Endian_Model IntFmt_Model.
From Verif Require Str_Model.
Open Scope Z_scope.

(* delim, lib/std/ipparse.myr:120-126 *)
Definition delim (ip : list N) (sep : N) (ok : bool) : list N * bool :=
  match ip with c :: r => if (c =? sep)%N then (r, ok) else ([], false) | [] => ([], false) end.
(* the loop of num, lib/std/ipparse.myr:135-139 *)
Fixpoint seplen (ip : list N) (sep : N) : nat :=
  match ip with [] => O | c :: r => if (c =? sep)%N then O else S (seplen r sep) end.
(* num, lib/std/ipparse.myr:128-149, before the number is cut to its type *)
Definition num (t : ity) (ip : list N) (lo hi base : Z) (sep : N) (ok : bool) : Z * list N * bool :=
  if negb ok then (0, [], false) else
  let len := seplen ip sep in
  match intparsebase t (firstn len ip) base with
  | Some v => if (v <? lo) || (hi <? v) then (0, [], false) else (v, skipn len ip, true)
  | None => (0, [], false)
  end.
(* ip4parse, lib/std/ipparse.myr:36-53; the bytes are the numbers' lowest eight bits *)
Definition ip4parse (t : ity) (ip : list N) : option (list Z) :=
  let '(a, ip, ok) := num t ip 0 255 10 46 true in
  let '(ip, ok) := delim ip 46 ok in
  let '(b, ip, ok) := num t ip 0 255 10 46 ok in
  let '(ip, ok) := delim ip 46 ok in
  let '(c, ip, ok) := num t ip 0 255 10 46 ok in
  let '(ip, ok) := delim ip 46 ok in
  let '(d, ip, ok) := num t ip 0 255 10 46 ok in
  if ok && (length ip =? 0)%nat then Some [a mod 256; b mod 256; c mod 256; d mod 256] else None.

Record ip6 := mk6 { rest : list N; val : list Z; nseg : nat; expand : bool; segsplit : nat; good : bool }.
(* the loop of ip6parse, lib/std/ipparse.myr:72-92; val holds bytes; i equals nseg at the start of each round.  An index
   beyond val cannot occur as the loop ends at eight segments. *)
Fixpoint seg (fuel : nat) (t : ity) (s : ip6) : ip6 :=
  match fuel with
  | O => s
  | S fuel =>
      if negb ((0 <? length (rest s))%nat && good s) then s else
      let '(v, ip, ok) := num t (rest s) 0 65536 16 58 (good s) in
      let i := nseg s in
      let vs := upd (upd (val s) (i * 2) (Z.land v 0xff00 / 2 ^ 8 mod 256)) (i * 2 + 1) (Z.land v 0xff) in
      let n := S (nseg s) in
      if (length ip =? 0)%nat || (n =? 8)%nat then mk6 ip vs n (expand s) (segsplit s) ok else
      let '(ip, ok) := delim ip 58 ok in
      if (0 <? length ip)%nat && (nth 0 ip 0 =? 58)%N && negb (expand s) then
        let '(ip, ok) := delim ip 58 ok in seg fuel t (mk6 ip vs n true n ok)
      else seg fuel t (mk6 ip vs n (expand s) (segsplit s) ok)
  end.
(* expandsplit, lib/std/ipparse.myr:107-118 *)
Definition expandsplit (ip : list Z) (nseg segsplit : nat) : list Z :=
  let split := (segsplit * 2)%nat in
  let middle := ((8 - nseg) * 2)%nat in
  let tail := firstn (16 - middle - split) (skipn split ip) in
  firstn split ip ++ repeat 0 (16 - length tail - split) ++ tail.
(* ip6parse, lib/std/ipparse.myr:57-104; junk is what val holds at first *)
Definition ip6parse (t : ity) (junk : list Z) (ip : list N) : option (list Z) :=
  let first := (2 <? length ip)%nat && Str_Model.sleq (firstn 2 ip) [58; 58]%N in
  let s := seg 9 t (mk6 ip junk 0 first 0 true) in
  if good s && (length (rest s) =? 0)%nat then
    if expand s then Some (expandsplit (val s) (nseg s) (segsplit s))
    else if negb (nseg s =? 8)%nat then None
    else Some (val s)
  else None.
(* ipparse, lib/std/ipparse.myr:29-34 *)
Definition ipparse (t : ity) (junk : list Z) (ip : list N) : option (list Z) :=
  match Str_Model.strfind ip [58%N] with Str_Model.At _ => ip6parse t junk ip | _ => ip4parse t ip end.
