(* Model of lib/escfmt/escsh.myr, escurl.myr and eschtml.myr (C100 to C102).  The string builder is the list of what is put
   into it; the installation of the formatters and the reading of the arguments are left out. *)
From Coq Require Import List NArith Bool.
Import ListNotations.
Open Scope N_scope.

(* shfmt, lib/escfmt/escsh.myr:18-31 *)
Definition shfmt (s : list N) : list N :=
  [39] ++ concat (map (fun b => if b =? 39 then [39; 92; 39; 39] else [b]) s) ++ [39].
(* the digits of the format {x}, lower case and without leading zeros, for a byte *)
Definition digit (d : N) : N := if d <? 10 then 48 + d else 87 + d.
Definition hex (b : N) : list N := if b <? 16 then [digit b] else [digit (b / 16); digit (b mod 16)].
(* urlfmt, lib/escfmt/escurl.myr:18-52; a byte below 0x80 printed as a character is the byte *)
Definition urlfmt (s : list N) : list N :=
  concat (map (fun b => if existsb (N.eqb b) [58; 47; 63; 35; 91; 93; 64; 33; 36; 38; 39; 40; 41; 42; 43; 44; 59; 61; 37] then 37 :: hex b
                        else if 0x80 <=? b then 37 :: hex b
                        else [b]) s).
(* htmlfmt, lib/escfmt/eschtml.myr:18-31, on the characters of the string: decoding and encoding them is left out *)
Definition htmlfmt (s : list N) : list N :=
  concat (map (fun c => if c =? 38 then [38; 97; 109; 112; 59]
                        else if c =? 60 then [38; 108; 116; 59]
                        else if c =? 62 then [38; 103; 116; 59]
                        else if c =? 47 then [38; 35; 120; 50; 102; 59]
                        else [c]) s).
