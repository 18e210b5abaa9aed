(* DEFLATE streams (RFC 1951) as a relation between a list of bits and the bytes it stands for.
   Bytes are read from their low bit up (section 3.1.1). *)
From Verif Require Import Base.
From Coq Require Import NArith.
Open Scope nat_scope.

Definition bits_of_byte (b : N) : list bool := map (fun i => N.testbit b (N.of_nat i)) (seq 0 8).
Definition bitstream (bytes : list N) : list bool := concat (map bits_of_byte bytes).

(* numbers other than codes: low bit first; codes: high bit first *)
Fixpoint lsb (bs : list bool) : nat := match bs with [] => 0 | b :: bs => Nat.b2n b + 2 * lsb bs end.
Definition msb (bs : list bool) : nat := fold_left (fun a b => 2 * a + Nat.b2n b) bs 0.

(* Section 3.2.2: a code is given by the lengths of its words, 0 for symbols without a word *)
Definition having (l : nat) (lens : list nat) : nat := length (filter (Nat.eqb l) lens).
Fixpoint next_code (lens : list nat) (l : nat) : nat :=
  match l with
  | O => 0
  | S l' => 2 * (next_code lens l' + match l' with O => 0 | _ => having l' lens end)
  end.
Definition codeword (lens : list nat) (s : nat) (w : list bool) : Prop :=
  exists l, nth_error lens s = Some l /\ 1 <= l /\ length w = l /\ msb w = next_code lens l + having l (firstn s lens).

(* Section 3.2.5: symbol 257 + k stands for a length of lenbase k plus the value of lenextra k bits *)
Definition lenextra (k : nat) : nat := if k =? 28 then 0 else (k - 4) / 4.
Definition lenbase (k : nat) : nat := if k =? 28 then 258 else 3 + list_sum (map (fun j => 2 ^ lenextra j) (seq 0 k)).
Definition distextra (k : nat) : nat := (k - 2) / 2.
Definition distbase (k : nat) : nat := 1 + list_sum (map (fun j => 2 ^ distextra j) (seq 0 k)).

(* o1 is o followed by len bytes, each equal to the one dist bytes before it *)
Definition repeats (o : list N) (dist len : nat) (o1 : list N) : Prop :=
  1 <= dist <= length o /\ length o1 = length o + len /\ firstn (length o) o1 = o /\
  forall i, i < len -> nth_error o1 (length o + i) = nth_error o1 (length o + i - dist).

(* one item of a compressed block: from output o and bits b to output o' and the bits left *)
Inductive item (ll dl : list nat) : list N -> list bool -> list N -> list bool -> Prop :=
| I_lit o w s b : s < 256 -> codeword ll s w -> item ll dl o (w ++ b) (o ++ [N.of_nat s]) b
| I_ref o w1 k x1 w2 d x2 o' b :
    codeword ll (257 + k) w1 -> k < 29 -> length x1 = lenextra k ->
    codeword dl d w2 -> d < 30 -> length x2 = distextra d ->
    repeats o (distbase d + lsb x2) (lenbase k + lsb x1) o' ->
    item ll dl o (w1 ++ x1 ++ w2 ++ x2 ++ b) o' b.
Inductive items (ll dl : list nat) : list N -> list bool -> list N -> list bool -> Prop :=
| I_none o b : items ll dl o b o b
| I_more o b o1 b1 o' b' : item ll dl o b o1 b1 -> items ll dl o1 b1 o' b' -> items ll dl o b o' b'.
(* the data of a compressed block: items and the end symbol *)
Definition compressed (ll dl : list nat) (o : list N) (b : list bool) (o' : list N) (b' : list bool) : Prop :=
  exists w, items ll dl o b o' (w ++ b') /\ codeword ll 256 w.
(* the bits go on with a word for one of the symbols that the codes have and the format gives no meaning *)
Definition undefined_symbol (ll dl : list nat) (b : list bool) : Prop :=
  (exists s w b', b = w ++ b' /\ codeword ll s w /\ 286 <= s) \/
  (exists k w1 x1 d w2 b', b = w1 ++ x1 ++ w2 ++ b' /\ codeword ll (257 + k) w1 /\ k < 29 /\ length x1 = lenextra k /\
     codeword dl d w2 /\ 30 <= d).

(* Section 3.2.6: the fixed codes *)
Definition fixed_ll : list nat := repeat 8 144 ++ repeat 9 112 ++ repeat 7 24 ++ repeat 8 8.
Definition fixed_dl : list nat := repeat 5 32.

(* Section 3.2.7: code lengths, written with the code cl, until there are total of them *)
Inductive lengths (cl : list nat) (total : nat) : list nat -> list bool -> list nat -> list bool -> Prop :=
| L_end acc b : length acc = total -> lengths cl total acc b acc b
| L_len acc w s b r b' : length acc < total -> s < 16 -> codeword cl s w ->
    lengths cl total (acc ++ [s]) b r b' -> lengths cl total acc (w ++ b) r b'
| L_copy acc p w x b r b' : codeword cl 16 w -> length x = 2 -> length (acc ++ [p]) + (3 + lsb x) <= total ->
    lengths cl total ((acc ++ [p]) ++ repeat p (3 + lsb x)) b r b' -> lengths cl total (acc ++ [p]) (w ++ x ++ b) r b'
| L_zero3 acc w x b r b' : codeword cl 17 w -> length x = 3 -> length acc + (3 + lsb x) <= total ->
    lengths cl total (acc ++ repeat 0 (3 + lsb x)) b r b' -> lengths cl total acc (w ++ x ++ b) r b'
| L_zero11 acc w x b r b' : codeword cl 18 w -> length x = 7 -> length acc + (11 + lsb x) <= total ->
    lengths cl total (acc ++ repeat 0 (11 + lsb x)) b r b' -> lengths cl total acc (w ++ x ++ b) r b'.
Definition order : list nat := [16; 17; 18; 0; 8; 7; 9; 6; 10; 5; 11; 4; 12; 3; 13; 2; 14; 1; 15].
(* the lengths of the 19 words of the code for code lengths, xs being the ones written, in this order *)
Definition headlens (xs : list (list bool)) (cl : list nat) : Prop :=
  length cl = 19 /\ forall i, i < 19 -> nth (nth i order 0) cl 0 = lsb (nth i xs []).
Definition header (b : list bool) (ll dl : list nat) (b' : list bool) : Prop :=
  exists hlit hdist hclen xs cl all b1,
    length hlit = 5 /\ length hdist = 5 /\ length hclen = 4 /\ length xs = 4 + lsb hclen /\ Forall (fun x => length x = 3) xs /\
    b = hlit ++ hdist ++ hclen ++ concat xs ++ b1 /\ 257 + lsb hlit <= 286 /\ 1 + lsb hdist <= 30 /\
    headlens xs cl /\ lengths cl (257 + lsb hlit + (1 + lsb hdist)) [] b1 all b' /\
    nth 256 all 0 <> 0 /\ ll = firstn (257 + lsb hlit) all /\ dl = skipn (257 + lsb hlit) all.

(* a block behind its first bit *)
Inductive block : list N -> list bool -> list N -> list bool -> Prop :=
| B_stored o b n c s b' : skipn (length b mod 8) b = n ++ c ++ bitstream s ++ b' -> length n = 16 -> c = map negb n ->
    Forall (fun x => (x < 256)%N) s -> length s = lsb n -> block o (false :: false :: b) (o ++ s) b'
| B_fixed o b o' b' : compressed fixed_ll fixed_dl o b o' b' -> block o (true :: false :: b) o' b'
| B_dynamic o b ll dl b1 o' b' : header b ll dl b1 -> compressed ll dl o b1 o' b' -> block o (false :: true :: b) o' b'.
(* blocks that are not the last, each marked with a clear bit *)
Inductive blocks : list N -> list bool -> list N -> list bool -> Prop :=
| S_none o b : blocks o b o b
| S_more o b o1 b1 o' b' : block o b o1 b1 -> blocks o1 b1 o' b' -> blocks o (false :: b) o' b'.
(* the bits b are a stream for the bytes o', followed by b' *)
Definition inflates (b : list bool) (o' : list N) (b' : list bool) : Prop :=
  exists o1 b1, blocks [] b o1 (true :: b1) /\ block o1 b1 o' b'.
(* a stream with a block in the fixed codes that comes to an undefined symbol *)
Definition undefined_in_fixed (b : list bool) : Prop :=
  exists o1 b1 final o2 b2, blocks [] b o1 (final :: true :: false :: b1) /\ items fixed_ll fixed_dl o1 b1 o2 b2 /\
    undefined_symbol fixed_ll fixed_dl b2.
