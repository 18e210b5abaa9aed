(* What a reader and a writer of a buffered file may rely on, stated on plain byte lists: no buffers, no devices. *)
From Verif Require Import Base Utf_Spec.
From Coq Require Import NArith.
Open Scope N_scope.

(* s split at the first occurrence of d: before it, behind it *)
Definition occurs_at (d s : list N) (i : nat) : Prop := exists b, skipn i s = d ++ b.
Definition first_at (d a b : list N) : Prop := forall i, (i < length a)%nat -> ~ occurs_at d (a ++ d ++ b) i.
Definition absent (d s : list N) : Prop := forall i, ~ occurs_at d s i.

Definition eol (c : N) : Prop := c = 13 \/ c = 10.
Definition plain (a : list N) : Prop := Forall (fun c => ~ eol c) a.

(* The next byte does not begin an over-long encoding: it is no byte that can begin one, or a character begins here. *)
Definition clean (s : list N) : Prop :=
  match s with
  | [] => True
  | b :: _ => ~ In b [0xc0; 0xe0; 0xf0] \/ exists c t, c < 0x200000 /\ s = utf8 c ++ t
  end.

(* little and big endian values of byte strings *)
Fixpoint le_value (bs : list N) : N := match bs with [] => 0 | b :: bs => b + 256 * le_value bs end.
Definition be_value (bs : list N) : N := le_value (rev bs).

(* The calls of a reader and what they answer *)
Inductive rop := OGetb | OPeekb | OGetc | OPeekc | ORead (n : nat) | OReadln
               | OReadto (d : list N) | OReadterm (d : list N) | OSkipto (d : list N) | OGetle (n : nat) | OGetbe (n : nat).
Inductive answer := AByte (b : N) | AChar (c : N) | ABytes (s : list N) | AInt (v : N) | ABool (b : bool) | AEof | AFail.

(* reads s o a s': on the byte stream s, call o answers a and leaves the stream s' *)
Inductive reads : list N -> rop -> answer -> list N -> Prop :=
| R_getb b s : reads (b :: s) OGetb (AByte b) s
| R_getb_eof : reads [] OGetb AEof []
| R_peekb b s : reads (b :: s) OPeekb (AByte b) (b :: s)
| R_peekb_eof : reads [] OPeekb AEof []
| R_getc c s : c < 0x200000 -> reads (utf8 c ++ s) OGetc (AChar c) s
| R_getc_eof : reads [] OGetc AEof []
| R_peekc c s : c < 0x200000 -> reads (utf8 c ++ s) OPeekc (AChar c) (utf8 c ++ s)
| R_peekc_eof : reads [] OPeekc AEof []
| R_read0 s : reads s (ORead 0) (ABytes []) s
| R_read n s : n <> O -> s <> [] -> reads s (ORead n) (ABytes (firstn n s)) (skipn n s)
| R_read_eof n : n <> O -> reads [] (ORead n) AEof []
| R_readln_lf a s : plain a -> reads (a ++ 10 :: s) OReadln (ABytes a) s
| R_readln_crlf a s : plain a -> reads (a ++ 13 :: 10 :: s) OReadln (ABytes a) s
| R_readln_cr a s : plain a -> hd 0 s <> 10 -> clean s -> reads (a ++ 13 :: s) OReadln (ABytes a) s
| R_readln_last a : plain a -> a <> [] -> reads a OReadln (ABytes a) []
| R_readln_eof : reads [] OReadln AEof []
| R_readto d a s : first_at d a s -> d <> [] -> reads (a ++ d ++ s) (OReadto d) (ABytes a) s
| R_readto_last d a : absent d a -> a <> [] -> reads a (OReadto d) (ABytes a) []
| R_readto_eof d : d <> [] -> reads [] (OReadto d) AEof []
| R_readterm d a s : first_at d a s -> d <> [] -> reads (a ++ d ++ s) (OReadterm d) (ABytes (a ++ d)) s
| R_readterm_last d a : absent d a -> a <> [] -> reads a (OReadterm d) (ABytes a) []
| R_readterm_eof d : d <> [] -> reads [] (OReadterm d) AEof []
| R_skipto d a s : first_at d a s -> d <> [] -> reads (a ++ d ++ s) (OSkipto d) (ABool true) s
| R_skipto_last d a : absent d a -> reads a (OSkipto d) (ABool false) []
| R_getle bs s : (length bs <= 8)%nat -> Forall (fun b => b < 256) bs -> reads (bs ++ s) (OGetle (length bs)) (AInt (le_value bs)) s
| R_getle_eof n s : (length s < n <= 8)%nat -> reads s (OGetle n) AEof s
| R_getbe bs s : (length bs <= 8)%nat -> Forall (fun b => b < 256) bs -> reads (bs ++ s) (OGetbe (length bs)) (AInt (be_value bs)) s
| R_getbe_eof n s : (length s < n <= 8)%nat -> reads s (OGetbe n) AEof s.

Inductive readsall : list N -> list rop -> list answer -> list N -> Prop :=
| RA_nil s : readsall s [] [] s
| RA_cons s o a s1 os ans s2 : reads s o a s1 -> readsall s1 os ans s2 -> readsall s (o :: os) (a :: ans) s2.

(* The calls of a writer, and the bytes each is to put into the file *)
Inductive wop := OWrite (s : list N) | OPutb (b : N) | OPutc (c : N) | OPutle (v : N) (n : nat) | OPutbe (v : N) (n : nat) | OFlush.
Fixpoint le_bytes (n : nat) (v : N) : list N := match n with O => [] | S n => v mod 256 :: le_bytes n (v / 256) end.
Definition bytes_of (o : wop) : list N :=
  match o with
  | OWrite s => s
  | OPutb b => [b]
  | OPutc c => utf8 c
  | OPutle v n => le_bytes n v
  | OPutbe v n => rev (le_bytes n v)
  | OFlush => []
  end.
Definition wop_ok (o : wop) : Prop :=
  match o with
  | OPutc c => c < 0x200000
  | OPutle v n | OPutbe v n => v < 2 ^ 64 /\ (n <= 8)%nat
  | _ => True
  end.

(* what a file holds after the bytes s are put at offset p: before p and behind the written part nothing changes *)
Definition holds (old : list N) (p : nat) (s new : list N) : Prop :=
  (forall i, (i < length s)%nat -> nth_error new (p + i) = nth_error s i) /\
  (forall i, (i < length old)%nat -> (i < p \/ p + length s <= i)%nat -> nth_error new i = nth_error old i) /\
  (forall i, (length old <= i < p)%nat -> s <> [] -> nth_error new i = Some 0) /\
  length new = Nat.max (length old) (match s with [] => 0 | _ => p + length s end)%nat.

(* A session on a file open for reading and writing: each part starts with a seek and then only reads or only writes.
   segs c l r c': from content c, the parts l answer r and leave content c'. *)
Inductive seg := SegRead (off : nat) (os : list rop) | SegWrite (off : nat) (os : list wop).
Inductive segs : list N -> list seg -> list (list answer) -> list N -> Prop :=
| S_nil c : segs c [] [] c
| S_read c off os ans s' l r c' : readsall (skipn off c) os ans s' -> segs c l r c' ->
    segs c (SegRead off os :: l) (ans :: r) c'
| S_write c off os c1 l r c' : Forall wop_ok os -> Forall (fun b => b < 256) (concat (map bytes_of os)) ->
    holds c off (concat (map bytes_of os)) c1 -> segs c1 l r c' ->
    segs c (SegWrite off os :: l) (map (fun _ => ABool true) os :: r) c'.
