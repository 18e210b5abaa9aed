(* Model of lib/flate/flate.myr: decompression from one buffered file into another.
   Simplifications: ints are unbounded naturals (bits is only called for at most 16 bits, so no int wraps); the two
   Huffman codes in the state are passed as arguments; fields of the state that decode leaves out of its literal are
   zero; the contents of an array that has not been written are zero. *)
From Verif Require Import Base Utf_Model Bio_Model.
From Coq Require Import NArith.
Open Scope nat_scope.

(* flate.myr:62-67 *)
Definition MaxSyms : nat := 288.
Definition MaxBits : nat := 15.
Definition WinSz : nat := N.to_nat 32768.

(* err, lib/flate/types.myr *)
Inductive ferr := Io (e : err) | Format.
(* flatedec, flate.myr:21-37 *)
Record dec := mkdec { rdf : file; wrf : file; bval : N; bpos : nat; wpos : nat; wlen : nat; win : list N }.
Inductive fres (A : Type) := FOk (a : A) (st : dec) | FErr (e : ferr) | FAbort | FHang.
Arguments FOk {A}. Arguments FErr {A}. Arguments FAbort {A}. Arguments FHang {A}.
Definition act (A : Type) := dec -> fres A.
Definition ret {A} (a : A) : act A := fun st => FOk a st.
Definition fail {A} (e : ferr) : act A := fun _ => FErr e.
Definition abort {A} : act A := fun _ => FAbort.
Definition hang {A} : act A := fun _ => FHang.
Definition bind {A B} (x : act A) (k : A -> act B) : act B :=
  fun st => match x st with FOk a st => k a st | FErr e => FErr e | FAbort => FAbort | FHang => FHang end.
Notation "x <- a ;; k" := (bind a (fun x => k)) (at level 100, a at next level, right associativity).
Notation "a ;;; k" := (bind a (fun _ => k)) (at level 100, right associativity).

(* bio.getb(st.rdf) as bits and nocomp use it *)
Definition nextb : act N := fun st =>
  match getb (rdf st) with
  | Done (f, Ok b) => FOk b (mkdec f (wrf st) (bval st) (bpos st) (wpos st) (wlen st) (win st))
  | Done (_, Err e) => FErr (Io e)
  | Abort => FAbort
  | OutOfFuel => FHang
  end.
(* outb, flate.myr:86-105 *)
Definition outb (b : N) : act unit := fun st =>
  match putb (wrf st) b with
  | Done (f, Ok O) => FAbort
  | Done (f, Ok _) =>
      let pos := if wpos st =? WinSz then 0 else wpos st in
      if (wpos st =? WinSz) && (wlen st <? WinSz) then FAbort
      else if pos <? length (win st)
      then FOk tt (mkdec (rdf st) f (bval st) (bpos st) (pos + 1) (wlen st + 1) (upd (win st) pos b))
      else FAbort
  | Done (_, Err e) => FErr (Io e)
  | Abort => FAbort
  | OutOfFuel => FHang
  end.
Definition setbval (v : N) : act unit := fun st =>
  FOk tt (mkdec (rdf st) (wrf st) v (bpos st) (wpos st) (wlen st) (win st)).
Definition setbpos (n : nat) : act unit := fun st =>
  FOk tt (mkdec (rdf st) (wrf st) (bval st) n (wpos st) (wlen st) (win st)).
Definition get : act dec := fun st => FOk st st.

(* bits, flate.myr:107-124, with its loop *)
Fixpoint bits_loop (fuel : nat) (n len : nat) (v : N) : act (N * nat) :=
  match fuel with
  | O => hang
  | S fuel =>
      if len <? n then
        b <- nextb ;;
        setbval b ;;;
        bits_loop fuel n (len + 8) (v + N.shiftl b (N.of_nat len))
      else ret (v, len)
  end.
Definition bits (n : nat) : act nat :=
  if 31 <? n then abort else
  st <- get ;;
  vl <- bits_loop 5 n (8 - bpos st) (N.shiftr (bval st) (N.of_nat (bpos st))) ;;
  setbpos (8 - (snd vl - n)) ;;;
  ret (N.to_nat (N.land (fst vl) (N.ones (N.of_nat n)))).

(* nocomp, flate.myr:126-156 *)
Fixpoint copyin (n : nat) : act unit :=
  match n with
  | O => ret tt
  | S n => b <- nextb ;; outb b ;;; copyin n
  end.
Definition nocomp : act unit :=
  setbpos 8 ;;;
  len <- bits 16 ;;
  nlen <- bits 16 ;;
  if (N.of_nat len =? N.lxor (N.of_nat nlen) 0xffff)%N then copyin len else fail Format.

(* hufc, flate.myr:40-47 *)
Record hufc := mkhc { count : list nat; symbol : list nat }.
(* mkhufc, flate.myr:158-180.  A length above MaxBits is an index out of bounds. *)
Definition counts (length : list nat) : list nat := fold_left (fun c l => upd c l (nth l c 0 + 1)) length (repeat 0 (MaxBits + 1)).
Fixpoint indices (k l : nat) (c idx : list nat) : list nat :=
  match k with
  | O => idx
  | S k => indices k (l + 1) c (upd idx l (nth (l - 1) idx 0 + nth (l - 1) c 0))
  end.
Fixpoint place (length : list nat) (symb : nat) (idx sy : list nat) : list nat :=
  match length with
  | [] => sy
  | l :: length =>
      if l =? 0 then place length (symb + 1) idx sy
      else place length (symb + 1) (upd idx l (nth l idx 0 + 1)) (upd sy (nth l idx 0) symb)
  end.
Definition mkhufc (length : list nat) : act hufc :=
  if (List.length length <=? MaxSyms) && forallb (fun l => l <=? MaxBits) length then
    let c := upd (counts length) 0 0 in
    ret (mkhc c (place length 0 (indices MaxBits 1 c (repeat 0 (MaxBits + 1))) (repeat 0 MaxSyms)))
  else abort.

(* readcode, flate.myr:182-209 *)
Fixpoint readcode_loop (k len : nat) (hc : hufc) (code first index : nat) : act nat :=
  match k with
  | O => fail Format
  | S k =>
      n <- bits 1 ;;
      let code := code + n in
      let cnt := nth len (count hc) 0 in
      if code <? first + cnt then
        if code <? first then abort
        else match nth_error (symbol hc) (index + (code - first)) with Some s => ret s | None => abort end
      else readcode_loop k (len + 1) hc (code * 2) ((first + cnt) * 2) (index + cnt)
  end.
Definition readcode (hc : hufc) : act nat := readcode_loop MaxBits 1 hc 0 0 0.

(* the tables of decomp, flate.myr:213-229 *)
Definition basel : list nat := [3; 4; 5; 6; 7; 8; 9; 10; 11; 13; 15; 17; 19; 23; 27; 31; 35; 43; 51; 59; 67; 83; 99; 115; 131; 163; 195; 227; 258].
Definition extral : list nat := [0; 0; 0; 0; 0; 0; 0; 0; 1; 1; 1; 1; 2; 2; 2; 2; 3; 3; 3; 3; 4; 4; 4; 4; 5; 5; 5; 5; 0].
Definition based : list nat := map N.to_nat [1; 2; 3; 4; 5; 7; 9; 13; 17; 25; 33; 49; 65; 97; 129; 193; 257; 385; 513; 769; 1025; 1537; 2049; 3073; 4097; 6145;
  8193; 12289; 16385; 24577]%N.
Definition extrad : list nat := [0; 0; 0; 0; 1; 1; 2; 2; 3; 3; 4; 4; 5; 5; 6; 6; 7; 7; 8; 8; 9; 9; 10; 10; 11; 11; 12; 12; 13; 13].
(* a table lookup, bounds checked *)
Definition lookup (t : list nat) (i : nat) : act nat := match nth_error t i with Some v => ret v | None => abort end.
Definition winat (i : nat) : act N := fun st => match nth_error (win st) i with Some b => FOk b st | None => FAbort end.
(* the copying loop, flate.myr:262-268 *)
Fixpoint copyback (len index : nat) : act unit :=
  match len with
  | O => ret tt
  | S len => b <- winat index ;; outb b ;;; copyback len ((index + 1) mod WinSz)
  end.
(* decomp, flate.myr:211-272 *)
Fixpoint decomp_loop (fuel : nat) (lenhc dsthc : hufc) : act unit :=
  match fuel with
  | O => hang
  | S fuel =>
      symb <- readcode lenhc ;;
      if symb <? 256 then outb (N.of_nat symb) ;;; decomp_loop fuel lenhc dsthc
      else if symb =? 256 then ret tt
      else
        let symb := symb - 257 in
        xb <- lookup extral symb ;;
        x <- bits xb ;;
        base <- lookup basel symb ;;
        let len := base + x in
        symb <- readcode dsthc ;;
        xb <- lookup extrad symb ;;
        x <- bits xb ;;
        base <- lookup based symb ;;
        let dst := base + x in
        st <- get ;;
        if wlen st <? dst then fail Format
        else copyback len ((WinSz + wpos st - dst) mod WinSz) ;;; decomp_loop fuel lenhc dsthc
  end.
(* more than the number of bits that are left *)
Definition enough (st : dec) : nat := 16 + 8 * avail (rdf st).
Definition decomp (lenhc dsthc : hufc) : act unit := fun st => decomp_loop (enough st) lenhc dsthc st.

(* dynamic, flate.myr:274-360 *)
Definition coden : list nat := [16; 17; 18; 0; 8; 7; 9; 6; 10; 5; 11; 4; 12; 3; 13; 2; 14; 1; 15].
(* the first loop, :304-309, over the places still to fill *)
Fixpoint headloop (places : list nat) (length : list nat) : act (list nat) :=
  match places with
  | [] => ret length
  | c :: places => n <- bits 3 ;; headloop places (upd length c n)
  end.
(* the second loop, :311-353; acc is length[:c].  The array has room for 320 lengths, total is at most 316. *)
Fixpoint lenloop (fuel : nat) (hc : hufc) (total : nat) (acc : list nat) : act (list nat) :=
  match fuel with
  | O => hang
  | S fuel =>
      if length acc <? total then
        symb <- readcode hc ;;
        if 18 <? symb then fail Format
        else if symb <? 16 then lenloop fuel hc total (acc ++ [symb])
        else
          xb <- lookup [2; 3; 7] (symb - 16) ;;
          x <- bits xb ;;
          if symb =? 16 then
            let x := x + 3 in
            if (length acc =? 0) || (total <? length acc + x) then fail Format
            else lenloop fuel hc total (acc ++ repeat (last acc 0) x)
          else
            let x := if symb =? 17 then x + 3 else x + 11 in
            if total <? length acc + x then fail Format
            else lenloop fuel hc total (acc ++ repeat 0 x)
      else ret acc
  end.
Definition dynamic : act unit :=
  n <- bits 5 ;;
  let nlen := n + 257 in
  if 286 <? nlen then fail Format else
  n <- bits 5 ;;
  let ndst := n + 1 in
  if 30 <? ndst then fail Format else
  n <- bits 4 ;;
  let ncode := n + 4 in
  cl <- headloop (firstn ncode coden) (repeat 0 19) ;;
  hc <- mkhufc cl ;;
  all <- lenloop (nlen + ndst + 1) hc (nlen + ndst) [] ;;
  if nth 256 all 0 =? 0 then fail Format else
  lenhc <- mkhufc (firstn nlen all) ;;
  dsthc <- mkhufc (skipn nlen all) ;;
  decomp lenhc dsthc.

(* __init__, flate.myr:72-84: the lengths of the fixed codes *)
Definition fixedlen : list nat := repeat 8 144 ++ repeat 9 (256 - 144) ++ repeat 7 (280 - 256) ++ repeat 8 (288 - 280).
Definition fixeddst : list nat := repeat 5 32.
(* decode, flate.myr:362-396 *)
Fixpoint decode_loop (fuel : nat) : act unit :=
  match fuel with
  | O => hang
  | S fuel =>
      final <- bits 1 ;;
      ty <- bits 2 ;;
      match ty with
      | 0 => nocomp
      | 1 => lenhc <- mkhufc fixedlen ;; dsthc <- mkhufc fixeddst ;; decomp lenhc dsthc
      | 2 => dynamic
      | _ => fail Format
      end ;;;
      if final =? 1 then ret tt else decode_loop fuel
  end.
Definition decode (outf inf : file) : fres unit :=
  let st := mkdec inf outf 0 8 0 0 (repeat 0%N WinSz) in
  decode_loop (enough st) st.
