(* Model of lib/std/utf.myr and the character iterators of lib/std/striter.myr.  Bytes are numbers below 256,
   a char is an unsigned 32-bit number (Badchar, -1, is 0xffffffff), byte strings are lists. *)
From Verif Require Import Base.
Open Scope N_scope.

Notation byte := N (only parsing).
Definition Badchar : N := 0xffffffff.   (* lib/std/utf.myr:7 *)
Definition isbyte (b : N) : Prop := b < 256.

(* charlen, lib/std/utf.myr:21-33 *)
Definition charlen (c : N) : nat :=
  if c <? 0x80 then 1%nat
  else if c <? 0x800 then 2%nat
  else if c <? 0x10000 then 3%nat
  else if c <? 0x200000 then 4%nat
  else 1%nat.

(* the for loop of encode, lib/std/utf.myr:50-53; returns the buffer and the shifted c *)
Fixpoint encode_loop (i : nat) (buf : list byte) (c : N) : list byte * N :=
  match i with
  | O => (buf, c)
  | S i' => encode_loop i' (upd buf i (N.lor (N.land c 0x3f) 0x80)) (N.shiftr c 6)
  end.
(* encode, lib/std/utf.myr:35-57: the size returned and the buffer afterwards *)
Definition encode (buf : list byte) (c : N) : Z * list byte :=
  let len := charlen c in
  if (length buf <? len)%nat then (-1, buf)%Z
  else
    let mark := if (len =? 1)%nat then 0 else N.lxor (N.shiftl 1 (N.of_nat (8 - len)) - 1) 0xff in
    let '(buf, c) := encode_loop (len - 1) buf c in
    (Z.of_nat len, upd buf 0 (N.land (N.lor c mark) 0xff)).

(* the for loop of charstep, lib/std/utf.myr:131-134, over str[1:len] *)
Fixpoint step_loop (chr : N) (tail : list byte) : N :=
  match tail with
  | [] => chr
  | t :: tail => step_loop (N.lor (N.shiftl chr 6) (N.land t 0x3f)) tail
  end.
(* the length announced by the first byte, lib/std/utf.myr:109-123; None: not a first byte *)
Definition lead (c : byte) : option nat :=
  if N.land c 0x80 =? 0 then Some 1%nat
  else if N.land c 0xe0 =? 0xc0 then Some 2%nat
  else if N.land c 0xf0 =? 0xe0 then Some 3%nat
  else if N.land c 0xf8 =? 0xf0 then Some 4%nat
  else None.
(* charstep, lib/std/utf.myr:97-137 *)
Definition charstep (str : list byte) : N * list byte :=
  match str with
  | [] => (Badchar, str)
  | c :: tl =>
      match lead c with
      | None => (Badchar, tl)
      | Some len =>
          if (length str <? len)%nat then (Badchar, tl)
          else
            let mask := N.shiftl 1 (N.of_nat (8 - len)) - 1 in
            (step_loop (N.land c mask) (firstn (len - 1) tl), skipn len str)
      end
  end.
(* decode, lib/std/utf.myr:59-65 *)
Definition decode (str : list byte) : N := fst (charstep str).

(* chariter, lib/std/striter.myr:52-67: the characters `for c : bychar(str)` visits.  None: fuel exhausted *)
Fixpoint bychar (fuel : nat) (rest : list byte) : option (list N) :=
  match fuel with
  | O => None
  | S fuel => match rest with
              | [] => Some []
              | _ => let '(c, rest) := charstep rest in option_map (cons c) (bychar fuel rest)
              end
  end.

(* charoffiter, lib/std/striter.myr:113-132: the pairs `for x : bycharoff(str)` visits.
   The slice ci.str[ci.idx:] aborts when idx > len: outcome Abort. *)
Inductive outcome (A : Type) := Done (a : A) | Abort | OutOfFuel.
Arguments Done {A}. Arguments Abort {A}. Arguments OutOfFuel {A}.
Definition ocons {A} (x : A) (o : outcome (list A)) : outcome (list A) :=
  match o with Done l => Done (x :: l) | Abort => Abort | OutOfFuel => OutOfFuel end.
Fixpoint bycharoff (fuel : nat) (str : list byte) (idx : nat) : outcome (list (N * nat)) :=
  match fuel with
  | O => OutOfFuel
  | S fuel =>
      if (idx =? length str)%nat then Done []
      else if (length str <? idx)%nat then Abort
      else let c := decode (skipn idx str) in
           let idx := (idx + charlen c)%nat in
           ocons (c, idx) (bycharoff fuel str idx)
  end.

(* graphemestep, lib/std/utf.myr:67-95; cellwidth (lib/std/chartype.myr) is a table lookup, a parameter here.
   Returns the split position; slicing at a position > len aborts. *)
Section Grapheme.
Context (cellwidth : N -> Z).
Definition control (c : N) : bool := (c =? 13) || (c =? 10) || (c =? 9).  (* '\r' '\n' '\t' *)
Fixpoint grapheme_loop (fuel : nat) (rest : list byte) (len : nat) : option nat :=
  match fuel with
  | O => None
  | S fuel =>
      match rest with
      | [] => Some len
      | _ =>
          let '(c, rest) := charstep rest in
          let cn := cellwidth c in
          if control c then Some (if (len =? 0)%nat then 1%nat else len)
          else if ((0 <? cn)%Z || (c =? Badchar)) && (0 <? len)%nat then Some len
          else if c =? Badchar then Some 1%nat
          else grapheme_loop fuel rest (len + charlen c)%nat
      end
  end.
Definition graphemestep (fuel : nat) (str : list byte) : outcome (list byte * list byte) :=
  match grapheme_loop fuel str 0 with
  | None => OutOfFuel
  | Some n => if (length str <? n)%nat then Abort else Done (firstn n str, skipn n str)
  end.
End Grapheme.
