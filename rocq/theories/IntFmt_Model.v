(* Model of lib/std/intfmt.myr, lib/std/intparse.myr and charval of lib/std/chartype.myr.  Formatted output is the list
   of bytes appended to the string buffer (unbounded strbuf, see Strbuf_Model for the buffer itself). *)
From Verif Require Import Base Word Endian_Model.
From Verif Require Utf_Model Str_Model Utf_Spec.
Open Scope Z_scope.

(* intparams, lib/std/intfmt.myr:10-14 *)
Record intparams := mkip { base : Z; padto : Z; padfill : N }.

Definition digitchars : list N := [48;49;50;51;52;53;54;55;56;57;97;98;99;100;101;102]%N. (* "0123456789abcdef" :19 *)

Inductive fmtres := Out (s : list N) | FmtAbort | FmtHang.

(* the digit loop, lib/std/intfmt.myr:49-53: b[i..] least significant first; i = length b.  The array b has 64
   entries; digitchars[...] and b[i] are bounds checked; division by zero traps. *)
Fixpoint digit_loop (fuel : nat) (b : list N) (val base : Z) : option (option (list N)) :=
  match fuel with
  | O => None
  | S fuel =>
      if val =? 0 then Some (Some b)
      else if base =? 0 then Some None
      else match nth_error digitchars (Z.to_nat (val mod base)) with
           | None => Some None
           | Some c => if (length b <? 64)%nat then digit_loop fuel (b ++ [c]) (val / base) base else Some None
           end
  end.
(* clamp, lib/std/extremum.myr:24-32 *)
Definition clamp (x lo hi : Z) : Z := if x <? lo then lo else if hi <? x then hi else x.
(* "-9223372036854775808", lib/std/intfmt.myr:34 *)
Definition int64min : list N := [45;57;50;50;51;51;55;50;48;51;54;56;53;52;55;55;53;56;48;56]%N.

(* intfmt, lib/std/intfmt.myr:20-71; bits and nbits are uint64, base converts to uint64.
   x86 shifts take the count modulo 64. *)
Definition intfmt (o : intparams) (signed : bool) (bits nbits : Z) : fmtres :=
  let base := cast uint64 (base o) in
  let neg := signed && (cast uint64 (Z.shiftl 1 ((nbits - 1) mod 64)) <=? bits) in
  let sval := cast int64 (- cast int64 bits) in
  if neg && (sval <? 0) then Out int64min
  else
    let val := if neg then cast uint64 sval else Z.land bits (Z.shiftr (cast uint64 (Z.lnot 0)) (nbits mod 64)) in
    let b0 := if val =? 0 then [48%N] else [] in
    match digit_loop 66 b0 val base with
    | None => FmtHang
    | Some None => FmtAbort
    | Some (Some b) =>
        let npad := clamp (padto o - Z.of_nat (length b)) 0 (padto o) in
        let npad := if neg then npad - 1 else npad in
        let fill := concat (repeat (Utf_Spec.utf8 (padfill o)) (Z.to_nat npad)) in   (* sbputc: see C32 *)
        Out ((if N.eqb (padfill o) 48 && neg then [45%N] else []) ++ fill ++
             (if negb (N.eqb (padfill o) 48) && neg then [45%N] else []) ++ rev b)
    end.
(* how fmt passes a value of an integer type, lib/std/fmt.myr:284-316 *)
Definition fmtint (o : intparams) (t : ity) (v : Z) : fmtres := intfmt o (sgn t) (cast uint64 v) (w t).

(* charval at int32, lib/std/chartype.myr:1673-1688 *)
Definition charval (c : N) (base : Z) : Z :=
  let v := if (48 <=? c)%N && (c <=? 57)%N then Z.of_N c - 48
           else if (97 <=? c)%N && (c <=? 122)%N then Z.of_N c - 97 + 10
           else if (65 <=? c)%N && (c <=? 90)%N then Z.of_N c - 65 + 10
           else -1 in
  if (v <? 0) || (base <=? v) then -1 else v.

(* the loop of doparse, lib/std/intparse.myr:55-66, over the characters of s *)
Fixpoint parse_loop (t : ity) (base v : Z) (cs : list N) : option Z :=
  match cs with
  | [] => Some v
  | c :: cs =>
      if (c =? 95)%N then parse_loop t base v cs           (* '_' *)
      else let cv := charval c base in
           if 0 <=? cv then parse_loop t base (cast t (cast t (v * cast t base) + cast t cv)) cs
           else None
  end.
(* doparse, lib/std/intparse.myr:50-73 *)
Definition doparse (t : ity) (s : list N) (isneg : bool) (base : Z) : option Z :=
  match Utf_Model.bychar (S (length s)) s with
  | None => None
  | Some cs => match parse_loop t base 0 cs with
               | None => None
               | Some v => Some (if isneg then cast t (- v) else v)
               end
  end.
(* intparsebase, lib/std/intparse.myr:38-48 *)
Definition intparsebase (t : ity) (s : list N) (base : Z) : option Z :=
  if Str_Model.hasprefix s [45%N] then doparse t (skipn 1 s) true base else doparse t s false base.
(* intparse, lib/std/intparse.myr:14-36 *)
Definition intparse (t : ity) (s : list N) : option Z :=
  let '(s, isneg) := if Str_Model.hasprefix s [45%N] then (skipn 1 s, true) else (s, false) in
  if (length s =? 0)%nat then None
  else if Str_Model.hasprefix s [48;120]%N then doparse t (skipn 2 s) isneg 16
  else if Str_Model.hasprefix s [48;111]%N then doparse t (skipn 2 s) isneg 8
  else if Str_Model.hasprefix s [48;98]%N then doparse t (skipn 2 s) isneg 2
  else doparse t s isneg 10.
