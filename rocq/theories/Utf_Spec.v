(* The UTF-8 bit layout (RFC 3629 table 3, extended to 21 bits), and what iterating a string should visit. *)
From Verif Require Import Base.
Open Scope N_scope.

Definition utf8 (c : N) : list N :=
  if c <? 0x80 then [c]
  else if c <? 0x800 then [0xc0 + c / 64; 0x80 + c mod 64]
  else if c <? 0x10000 then [0xe0 + c / 4096; 0x80 + c / 64 mod 64; 0x80 + c mod 64]
  else [0xf0 + c / 262144; 0x80 + c / 4096 mod 64; 0x80 + c / 64 mod 64; 0x80 + c mod 64].

Definition utf8_string (cs : list N) : list N := concat (map utf8 cs).

(* each code point with the offset at which its encoding starts *)
Fixpoint with_offsets (off : nat) (cs : list N) : list (N * nat) :=
  match cs with
  | [] => []
  | c :: cs => (c, off) :: with_offsets (off + length (utf8 c)) cs
  end.
(* each code point with the offset just after its encoding *)
Fixpoint with_ends (off : nat) (cs : list N) : list (N * nat) :=
  match cs with
  | [] => []
  | c :: cs => (c, off + length (utf8 c))%nat :: with_ends (off + length (utf8 c)) cs
  end.
