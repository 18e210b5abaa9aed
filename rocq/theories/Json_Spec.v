(* JSON texts (RFC 8259) as a relation between a value and a list of bytes. *)
From Verif Require Import Base Utf_Spec.
From Coq Require Import NArith.
Open Scope N_scope.

(* values, over some type of numbers; strings are bytes, objects keep their members in order *)
Inductive elt (num : Type) : Type :=
| Null | Bool (b : bool) | Num (n : num) | Str (s : list N) | Arr (a : list (elt num)) | Obj (o : list (list N * elt num)).
Arguments Null {num}. Arguments Bool {num}. Arguments Num {num}. Arguments Str {num}. Arguments Arr {num}. Arguments Obj {num}.

(* section 2: white space *)
Definition space (c : N) : Prop := c = 32 \/ c = 9 \/ c = 10 \/ c = 13.
Definition ws (t : list N) : Prop := Forall space t.

(* section 6: numbers *)
Definition digit (c : N) : Prop := 48 <= c <= 57.
Definition digits (t : list N) : Prop := t <> [] /\ Forall digit t.
Definition int (t : list N) : Prop := t = [48] \/ (digits t /\ hd 0 t <> 48).
Definition frac (t : list N) : Prop := t = [] \/ exists d, t = 46 :: d /\ digits d.
Definition exponent (t : list N) : Prop :=
  t = [] \/ exists e s d, t = e :: s ++ d /\ (e = 101 \/ e = 69) /\ (s = [] \/ s = [43] \/ s = [45]) /\ digits d.
Definition number (t : list N) : Prop :=
  exists m i f e, t = m ++ i ++ f ++ e /\ (m = [] \/ m = [45]) /\ int i /\ frac f /\ exponent e.

(* section 7: characters that stand for themselves, and the escapes of two characters: quote, backslash, slash, b f n r t *)
Definition unescaped_char (c : N) : Prop := 32 <= c <= 0x10ffff /\ c <> 34 /\ c <> 92.
Definition escapes : list (N * N) := [(34, 34); (92, 92); (47, 47); (98, 8); (102, 12); (110, 10); (114, 13); (116, 9)].
(* the value of four hexadecimal digits *)
Definition hexdigit (c : N) : option N :=
  if (48 <=? c) && (c <=? 57) then Some (c - 48)
  else if (97 <=? c) && (c <=? 102) then Some (c - 87)
  else if (65 <=? c) && (c <=? 70) then Some (c - 55)
  else None.
Definition hex4 (t : list N) : option N :=
  match t with
  | [a; b; c; d] => match hexdigit a, hexdigit b, hexdigit c, hexdigit d with
                    | Some a, Some b, Some c, Some d => Some (4096 * a + 256 * b + 16 * c + d)
                    | _, _, _, _ => None
                    end
  | _ => None
  end.
Definition nohex (t : list N) : option N := None.

(* read gives the number a text stands for, uni the character four hexadecimal digits stand for *)
Section grammar.
  Context {num : Type} (read : list N -> option num) (uni : list N -> option N).
  (* the text between the quotes and the bytes of the string *)
  Inductive chars : list N -> list N -> Prop :=
  | C_none : chars [] []
  | C_plain c t s : unescaped_char c -> chars t s -> chars (utf8 c ++ t) (utf8 c ++ s)
  | C_escape e c t s : In (e, c) escapes -> chars t s -> chars (92 :: e :: t) (c :: s)
  | C_unicode ds c t s : length ds = 4%nat -> uni ds = Some c -> chars t s -> chars (92 :: 117 :: ds ++ t) (utf8 c ++ s).
  Definition string (s : list N) (t : list N) : Prop := exists q, t = 34 :: q ++ [34] /\ chars q s.
  Inductive json : elt num -> list N -> Prop :=
  | J_null : json Null [110; 117; 108; 108]
  | J_true : json (Bool true) [116; 114; 117; 101]
  | J_false : json (Bool false) [102; 97; 108; 115; 101]
  | J_num t n : number t -> read t = Some n -> json (Num n) t
  | J_str s t : string s t -> json (Str s) t
  | J_noelts w : ws w -> json (Arr []) (91 :: w ++ [93])
  | J_arr a t : elts a t -> json (Arr a) (91 :: t ++ [93])
  | J_nomembs w : ws w -> json (Obj []) (123 :: w ++ [125])
  | J_obj o t : membs o t -> json (Obj o) (123 :: t ++ [125])
  with elts : list (elt num) -> list N -> Prop :=
  | E_last v t w1 w2 : ws w1 -> json v t -> ws w2 -> elts [v] (w1 ++ t ++ w2)
  | E_more v t w1 w2 a ts : ws w1 -> json v t -> ws w2 -> elts a ts -> elts (v :: a) (w1 ++ t ++ w2 ++ 44 :: ts)
  with membs : list (list N * elt num) -> list N -> Prop :=
  | M_last k kt v t w1 w2 w3 w4 : ws w1 -> string k kt -> ws w2 -> ws w3 -> json v t -> ws w4 ->
      membs [(k, v)] (w1 ++ kt ++ w2 ++ 58 :: w3 ++ t ++ w4)
  | M_more k kt v t w1 w2 w3 w4 o ts : ws w1 -> string k kt -> ws w2 -> ws w3 -> json v t -> ws w4 -> membs o ts ->
      membs ((k, v) :: o) (w1 ++ kt ++ w2 ++ 58 :: w3 ++ t ++ w4 ++ 44 :: ts).
  (* section 2: a text is a value with white space around it *)
  Definition text (v : elt num) (t : list N) : Prop := exists w1 b w2, t = w1 ++ b ++ w2 /\ ws w1 /\ json v b /\ ws w2.
End grammar.

(* how deep a value is nested, and how many empty arrays and objects it has *)
Fixpoint nest {num} (v : elt num) : N :=
  match v with
  | Arr a => 1 + fold_right (fun v m => N.max (nest v) m) 0 a
  | Obj o => 1 + fold_right (fun kv m => N.max (nest (snd kv)) m) 0 o
  | _ => 0
  end.
Fixpoint empties {num} (v : elt num) : N :=
  match v with
  | Arr [] => 1
  | Obj [] => 1
  | Arr a => fold_right (fun v m => empties v + m) 0 a
  | Obj o => fold_right (fun kv m => empties (snd kv) + m) 0 o
  | _ => 0
  end.
(* all strings (and keys) of a value satisfy S, all its numbers Q *)
Fixpoint every {num} (S : list N -> Prop) (Q : num -> Prop) (v : elt num) : Prop :=
  match v with
  | Num n => Q n
  | Str s => S s
  | Arr a => fold_right (fun v p => every S Q v /\ p) True a
  | Obj o => fold_right (fun kv p => S (fst kv) /\ every S Q (snd kv) /\ p) True o
  | _ => True
  end.
(* UTF-8 strings *)
Definition is_utf8 (s : list N) : Prop := exists cs, s = utf8_string cs /\ Forall (fun c => c <= 0x10ffff) cs.
(* UTF-8 strings without quotes and without control characters other than form feed, newline, return and tab *)
Definition plain (s : list N) : Prop :=
  exists cs, s = utf8_string cs /\ Forall (fun c => c <= 0x10ffff /\ c <> 34 /\ (32 <= c \/ In c [12; 10; 13; 9])) cs.
