(* C100 to C102: how a shell, a URL decoder and an HTML reader read text.  Nothing here is taken from the code. *)
From Coq Require Import List NArith Bool.
Import ListNotations.
Open Scope N_scope.

(* letters, digits and - . _ ~ : never special, the unreserved characters of RFC 3986 *)
Definition unreserved (c : N) : bool :=
  ((48 <=? c) && (c <=? 57)) || ((65 <=? c) && (c <=? 90)) || ((97 <=? c) && (c <=? 122)) || existsb (N.eqb c) [45; 46; 95; 126].
(* a text that a POSIX shell reads as one word, and the word: within single quotes (39) everything stands for itself; outside,
   a backslash (92) takes the next byte as it is.  None: a quote is open at the end, or an unquoted byte may be special. *)
Fixpoint shword (quoted : bool) (s : list N) : option (list N) :=
  match s with
  | [] => if quoted then None else Some []
  | c :: s =>
      if quoted then (if c =? 39 then shword false s else option_map (cons c) (shword true s))
      else if c =? 39 then shword true s
      else if c =? 92 then match s with [] => None | d :: s => option_map (cons d) (shword false s) end
      else if unreserved c then option_map (cons c) (shword false s)
      else None
  end.
(* the bytes a percent-encoded text stands for *)
Definition hexval (c : N) : option N :=
  if (48 <=? c) && (c <=? 57) then Some (c - 48)
  else if (97 <=? c) && (c <=? 102) then Some (c - 87)
  else if (65 <=? c) && (c <=? 70) then Some (c - 55)
  else None.
Fixpoint urlread (s : list N) : option (list N) :=
  match s with
  | [] => Some []
  | c :: s =>
      if c =? 37 then
        match s with
        | a :: b :: s => match hexval a, hexval b with Some x, Some y => option_map (cons (16 * x + y)) (urlread s) | _, _ => None end
        | _ => None
        end
      else option_map (cons c) (urlread s)
  end.
(* the reserved characters of RFC 3986: : / ? # [ ] @ ! $ & ' ( ) * + , ; = *)
Definition reserved : list N := [58; 47; 63; 35; 91; 93; 64; 33; 36; 38; 39; 40; 41; 42; 43; 44; 59; 61].
(* the characters an HTML text stands for: &amp; &lt; &gt; &#x2f; name & < > and /; None: an & that begins none of these, or
   a < or > *)
Fixpoint htmlread (s : list N) : option (list N) :=
  match s with
  | [] => Some []
  | 38 :: 97 :: 109 :: 112 :: 59 :: s => option_map (cons 38) (htmlread s)
  | 38 :: 108 :: 116 :: 59 :: s => option_map (cons 60) (htmlread s)
  | 38 :: 103 :: 116 :: 59 :: s => option_map (cons 62) (htmlread s)
  | 38 :: 35 :: 120 :: 50 :: 102 :: 59 :: s => option_map (cons 47) (htmlread s)
  | c :: s => if (c =? 38) || (c =? 60) || (c =? 62) then None else option_map (cons c) (htmlread s)
  end.
