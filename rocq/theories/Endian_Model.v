(* Model of lib/std/putint.myr, lib/std/getint.myr and lib/std/endian.myr.  Values of an integer type are integers
   in its range; arithmetic wraps to the width of the type.  Bytes are integers 0..255, buffers are lists. *)
From Verif Require Import Base Word.
Open Scope Z_scope.

(* an integer type of the language: width in bits and signedness *)
Record ity := mkity { w : Z; sgn : bool }.
Definition int8 := mkity 8 true. Definition uint8 := mkity 8 false.
Definition int16 := mkity 16 true. Definition uint16 := mkity 16 false.
Definition int32 := mkity 32 true. Definition uint32 := mkity 32 false.
Definition int64 := mkity 64 true. Definition uint64 := mkity 64 false.
(* conversion (e : ty), and the truncation every operation on ty performs *)
Definition cast (t : ity) (z : Z) : Z := if sgn t then swrap (w t) z else uwrap (w t) z.

(* an out-of-range index or failed iassert aborts; a memblit beyond either object is undefined *)
Inductive outcome (A : Type) := Done (a : A) | Abort | Overrun.
Arguments Done {A}. Arguments Abort {A}. Arguments Overrun {A}.

(* putle, lib/std/putint.myr:49-55; val is a uint64; r = iterations left *)
Fixpoint putle_loop (r i : nat) (buf : list Z) (val : Z) : outcome (list Z) :=
  match r with
  | O => Done buf
  | S r => if (i <? length buf)%nat
           then putle_loop r (S i) (upd buf i (Z.land val 0xff)) (Z.shiftr val 8)
           else Abort
  end.
Definition putle (buf : list Z) (val : Z) (n : nat) : outcome (list Z) := putle_loop n 0 buf val.
(* putbe, lib/std/putint.myr:39-47 *)
Fixpoint putbe_loop (r i n : nat) (buf : list Z) (val : Z) : outcome (list Z) :=
  match r with
  | O => Done buf
  | S r => let k := Z.shiftr val (8 * Z.of_nat (n - i - 1)) in
           if (i <? length buf)%nat
           then putbe_loop r (S i) n (upd buf i (Z.land k 0xff)) val
           else Abort
  end.
Definition putbe (buf : list Z) (val : Z) (n : nat) : outcome (list Z) := putbe_loop n 0 n buf val.
(* memblit of the n bytes of a little-endian value into the front of a buffer *)
Definition le_image (n : nat) (v : Z) : list Z := map (fun i => v / 256 ^ Z.of_nat i mod 256) (seq 0 n).
(* puthost, lib/std/putint.myr:20-24; the result type has n bytes *)
Definition puthost (buf : list Z) (val : Z) (n : nat) : outcome (list Z) :=
  if (n <=? length buf)%nat then Done (le_image n val ++ skipn n buf) else Abort.

(* lib/std/putint.myr:26-37 *)
Definition putle64 buf v := putle buf (cast uint64 v) 8.
Definition putbe64 buf v := putbe buf (cast uint64 v) 8.
Definition putle32 buf v := putle buf (cast uint64 v) 4.
Definition putbe32 buf v := putbe buf (cast uint64 v) 4.
Definition putle16 buf v := putle buf (cast uint64 v) 2.
Definition putbe16 buf v := putbe buf (cast uint64 v) 2.
Definition putle8 buf v := putle buf (cast uint64 v) 1.
Definition putbe8 buf v := putbe buf (cast uint64 v) 1.
Definition puthost64 buf v := puthost buf (cast uint64 v) 8.
Definition puthost32 buf v := puthost buf (cast uint32 v) 4.
Definition puthost16 buf v := puthost buf (cast uint16 v) 2.
Definition puthost8 buf v := puthost buf (cast uint8 v) 1.

(* ((buf[i] : @a) << k) | ... : lib/std/getint.myr.  Shift counts below the width of @a only. *)
Fixpoint getor (t : ity) (buf : list Z) (acc : Z) (terms : list (nat * nat)) : outcome Z :=
  match terms with
  | [] => Done acc
  | (i, k) :: terms =>
      match nth_error buf i with
      | None => Abort
      | Some b => getor t buf (cast t (Z.lor acc (cast t (Z.shiftl (cast t b) (Z.of_nat k))))) terms
      end
  end.
(* getbe64 :26-35, getle64 :37-46 *)
Definition getbe64 t buf := getor t buf 0 [(0,56);(1,48);(2,40);(3,32);(4,24);(5,16);(6,8);(7,0)]%nat.
Definition getle64 t buf := getor t buf 0 [(0,0);(1,8);(2,16);(3,24);(4,32);(5,40);(6,48);(7,56)]%nat.
(* getbe32 :55-60, getle32 :62-67 *)
Definition getbe32 t buf := getor t buf 0 [(0,24);(1,16);(2,8);(3,0)]%nat.
Definition getle32 t buf := getor t buf 0 [(0,0);(1,8);(2,16);(3,24)]%nat.
(* getbe16 :76-79, getle16 :81-84 *)
Definition getbe16 t buf := getor t buf 0 [(0,8);(1,0)]%nat.
Definition getle16 t buf := getor t buf 0 [(0,0);(1,8)]%nat.
(* gethost8, getbe8, getle8 :86-96 *)
Definition getle8 t buf := getor t buf 0 [(0,0)]%nat.
Definition getbe8 t buf := getor t buf 0 [(0,0)]%nat.
Definition gethost8 t buf := getor t buf 0 [(0,0)]%nat.
(* gethost64 :19-24, gethost32 :48-53, gethost16 :69-74: iassert(buf.len >= need); memblit(&val, buf, n) with val of
   type vt, then (val : @a).  Little-endian machine. *)
Fixpoint le_val (l : list Z) : Z := match l with [] => 0 | b :: l => b + 256 * le_val l end.
Definition gethost (t vt : ity) (need n : nat) (buf : list Z) : outcome Z :=
  if (length buf <? need)%nat then Abort
  else if (8 * Z.of_nat n <=? w vt) && (n <=? length buf)%nat
       then Done (cast t (cast vt (le_val (firstn n buf))))
       else Overrun.
Definition gethost64 t buf := gethost t int64 8 8 buf.
Definition gethost32 t buf := gethost t int32 4 4 buf.
Definition gethost16 t buf := gethost t int16 2 4 buf.

(* hosttonet, nettohost: lib/std/endian.myr:8-32 (identical bodies); r = iterations left *)
Fixpoint swap_loop (t : ity) (r : nat) (ret v : Z) : Z :=
  match r with
  | O => ret
  | S r => let ret := cast t (Z.shiftl ret 8) in
           let ret := cast t (Z.lor ret (Z.land v 0xff)) in
           swap_loop t r ret (Z.shiftr v 8)
  end.
Definition hosttonet (t : ity) (v : Z) : Z := swap_loop t (Z.to_nat (w t / 8)) 0 v.
Definition nettohost := hosttonet.
