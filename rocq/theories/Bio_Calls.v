(* Programs that use a buffered file: sequences of calls and the answers they get. *)
From Verif Require Import Base Utf_Model Bio_Model Bio_Spec.
From Coq Require Import NArith List.
Import ListNotations.

Definition answer_of {A} (k : A -> answer) (r : result A) : answer :=
  match r with Ok a => k a | Err Eof => AEof | Err _ => AFail end.
Definition lift {A} (k : A -> answer) (o : outcome (file * result A)) : outcome (file * answer) :=
  match o with
  | Done (f, r) => Done (f, answer_of k r)
  | Abort => Abort
  | OutOfFuel => OutOfFuel
  end.
(* one call of the reading interface *)
Definition call (f : file) (o : rop) : outcome (file * answer) :=
  match o with
  | OGetb => lift AByte (getb f)
  | OPeekb => lift AByte (peekb f)
  | OGetc => lift AChar (getc f)
  | OPeekc => lift AChar (peekc f)
  | ORead n => lift ABytes (read f n)
  | OReadln => lift ABytes (readln f)
  | OReadto d => lift ABytes (readto f d)
  | OReadterm d => lift ABytes (readterm f d)
  | OSkipto d => match skipto f d with
                 | Done (f, b) => Done (f, ABool b)
                 | Abort => Abort
                 | OutOfFuel => OutOfFuel
                 end
  | OGetle n => lift AInt (getle f n)
  | OGetbe n => lift AInt (getbe f n)
  end.
Fixpoint calls (f : file) (os : list rop) : outcome (file * list answer) :=
  match os with
  | [] => Done (f, [])
  | o :: os =>
      match call f o with
      | Done (f, a) => match calls f os with
                       | Done (f, l) => Done (f, a :: l)
                       | Abort => Abort
                       | OutOfFuel => OutOfFuel
                       end
      | Abort => Abort
      | OutOfFuel => OutOfFuel
      end
  end.

(* one call of the writing interface: whether it reported success *)
Definition okr {A} (o : outcome (file * result A)) : outcome (file * bool) :=
  match o with
  | Done (f, Ok _) => Done (f, true)
  | Done (f, Err _) => Done (f, false)
  | Abort => Abort
  | OutOfFuel => OutOfFuel
  end.
Definition put (f : file) (o : wop) : outcome (file * bool) :=
  match o with
  | OWrite s => okr (write f s)
  | OPutb b => okr (putb f b)
  | OPutc c => okr (putc f c)
  | OPutle v n => okr (putle f v n)
  | OPutbe v n => okr (putbe f v n)
  | OFlush => flush f
  end.
Fixpoint puts (f : file) (os : list wop) : outcome (file * list bool) :=
  match os with
  | [] => Done (f, [])
  | o :: os =>
      match put f o with
      | Done (f, a) => match puts f os with
                       | Done (f, l) => Done (f, a :: l)
                       | Abort => Abort
                       | OutOfFuel => OutOfFuel
                       end
      | Abort => Abort
      | OutOfFuel => OutOfFuel
      end
  end.

(* a session of parts, each starting with a seek; a part whose seek fails answers only that *)
Definition part (f : file) (g : seg) : outcome (file * list answer) :=
  match seek f (match g with SegRead off _ => off | SegWrite off _ => off end) with
  | Done (f, Ok _) =>
      match g with
      | SegRead _ os => calls f os
      | SegWrite _ os => match puts f os with
                         | Done (f, l) => Done (f, map ABool l)
                         | Abort => Abort
                         | OutOfFuel => OutOfFuel
                         end
      end
  | Done (f, Err _) => Done (f, [AFail])
  | Abort => Abort
  | OutOfFuel => OutOfFuel
  end.
Fixpoint session (f : file) (l : list seg) : outcome (file * list (list answer)) :=
  match l with
  | [] => Done (f, [])
  | g :: l =>
      match part f g with
      | Done (f, a) => match session f l with
                       | Done (f, r) => Done (f, a :: r)
                       | Abort => Abort
                       | OutOfFuel => OutOfFuel
                       end
      | Abort => Abort
      | OutOfFuel => OutOfFuel
      end
  end.
