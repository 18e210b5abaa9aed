(* Model of the lexer, parse/tok.c.  The input is the list of bytes of the file not yet consumed;
   fidx, fbuf and fbufsz are replaced by that list.  Simplifications: the file is shorter than
   2^31 bytes (fbufsz and the comment depth are ints); isalpha, isspace and the like are those of
   the C locale and false for bytes above 127 (plain char is signed on amd64, so the code passes
   them negative numbers, which the C standard leaves undefined); Tok.id, used in messages, is
   kept only for identifiers; malloc does not fail. *)
From Verif Require Import Base.
From Coq Require Export String Ascii.
From Coq Require Export List.
Export ListNotations.
Local Open Scope N_scope.

Definition text := list N.
Definition bytes (s : string) : text := map N_of_ascii (list_ascii_of_string s).

(* what a call to the lexer does: a result, lfatal (message and exit), an access outside an
   array, or a loop of the model cut short *)
Inductive res (A : Type) := Ok (a : A) | Fatal | Ub | Fuel.
Arguments Ok {A} a. Arguments Fatal {A}. Arguments Ub {A}. Arguments Fuel {A}.

(* peek() == End: parse/tok.c:19,30-43.  fbuf is an array of (signed) char, so the byte 0xff is
   returned as -1, which is End. *)
Definition atend (s : text) : bool := match s with [] => true | c :: _ => c =? 255 end.
(* match, parse/tok.c:66-75: Some rest when the next byte is c *)
Definition mtch (c : N) (s : text) : option text :=
  match s with d :: s => if d =? c then Some s else None | [] => None end.

(* <ctype.h>, C locale *)
Definition isdigit (c : N) : bool := (48 <=? c) && (c <=? 57).
Definition isalpha (c : N) : bool := ((65 <=? c) && (c <=? 90)) || ((97 <=? c) && (c <=? 122)).
Definition isalnum (c : N) : bool := isalpha c || isdigit c.
Definition isxdigit (c : N) : bool := isdigit c || ((65 <=? c) && (c <=? 70)) || ((97 <=? c) && (c <=? 102)).
Definition isspace (c : N) : bool := (c =? 32) || ((9 <=? c) && (c <=? 13)).
(* identchar, parse/tok.c:88-91 *)
Definition identchar (c : N) : bool := isalnum c || (c =? 95) || (c =? 36).

(* eatcomment, parse/tok.c:93-126; 47 is a slash, 42 a star *)
Fixpoint eatcomment (depth : N) (line : N) (s : text) : res (text * N) :=
  match s with
  | [] => Fatal
  | c :: s1 =>
      if c =? 255 then Fatal
      else if c =? 47 then
        match s1 with
        | d :: s2 => if d =? 42 then eatcomment (depth + 1) line s2
                     else if depth =? 0 then Ok (s1, line) else eatcomment depth line s1
        | [] => if depth =? 0 then Ok (s1, line) else eatcomment depth line s1
        end
      else if c =? 42 then
        match s1 with
        | d :: s2 => if d =? 47 then (if depth =? 1 then Ok (s2, line) else eatcomment (depth - 1) line s2)
                     else if depth =? 0 then Ok (s1, line) else eatcomment depth line s1
        | [] => if depth =? 0 then Ok (s1, line) else eatcomment depth line s1
        end
      else
        let line := if c =? 10 then line + 1 else line in
        if depth =? 0 then Ok (s1, line) else eatcomment depth line s1
  end.

(* eatspace, the loop over a line comment: parse/tok.c:156-157 *)
Fixpoint eatline (s : text) : text :=
  match s with
  | [] => []
  | c :: s1 => if (c =? 255) || (c =? 10) then s else eatline s1
  end.

(* eatspace, parse/tok.c:135-162; 92 is a backslash.  The fuel bounds the number of turns. *)
Fixpoint eatspace (fuel : nat) (ignorenl : bool) (line : N) (s : text) : res (text * N) :=
  match fuel with
  | O => Fuel
  | S fuel =>
      match s with
      | [] => Ok (s, line)
      | c :: s1 =>
          if negb ignorenl && (c =? 10) then Ok (s, line)
          else if c =? 92 then eatspace fuel true line s1
          else if ignorenl && (c =? 10) then eatspace fuel false (line + 1) s1
          else if isspace c then eatspace fuel ignorenl line s1
          else if (c =? 47) && match s1 with d :: _ => d =? 42 | [] => false end then
            match eatcomment 0 line s with
            | Ok (s, line) => eatspace fuel ignorenl line s
            | r => r
            end
          else if (c =? 47) && match s1 with d :: _ => d =? 47 | [] => false end then
            eatspace fuel ignorenl line (eatline s)
          else Ok (s, line)
      end
  end.

(* token types: parse/tokens.def via gram.y *)
Inductive tt :=
| Tident | Tattr | Tgap | Tauto | Tbreak | Tconst | Tcontinue | Telif | Telse | Tboollit | Tfor | Tgeneric | Tgoto | Tif
| Timpl | Tmatch | Tpkg | Tsizeof | Tstruct | Ttrait | Ttype | Tunion | Tuse | Tvar | Tvoidlit | Twhile
| Tobrace | Tcbrace | Toparen | Tcparen | Tosqbrac | Tcsqbrac | Tcomma | Ttick | Tderef | Tqmark | Twith | Tcolon | Tbnot
| Tendblk | Tendln | Tellipsis | Tdot | Taddeq | Tinc | Tplus | Tsubeq | Tdec | Tret | Tminus | Tmuleq | Tmul | Tdiveq | Tdiv
| Tmodeq | Tmod | Teq | Tasn | Tboreq | Tlor | Tbor | Tbandeq | Tland | Tband | Tbxoreq | Tbxor | Tle | Tbsleq | Tbsl | Tlt
| Tge | Tbsreq | Tbsr | Tgt | Tne | Tlnot.

(* kwmap, parse/tok.c:173-205 *)
Definition kwmap : list (text * tt) :=
  map (fun p => (bytes (fst p), snd p))
  [("$noret"%string, Tattr); ("_"%string, Tgap); ("auto"%string, Tauto); ("break"%string, Tbreak); ("const"%string, Tconst);
   ("continue"%string, Tcontinue); ("elif"%string, Telif); ("else"%string, Telse); ("extern"%string, Tattr);
   ("false"%string, Tboollit); ("for"%string, Tfor); ("generic"%string, Tgeneric); ("goto"%string, Tgoto); ("if"%string, Tif);
   ("impl"%string, Timpl); ("match"%string, Tmatch); ("pkg"%string, Tpkg); ("pkglocal"%string, Tattr);
   ("sizeof"%string, Tsizeof); ("struct"%string, Tstruct); ("trait"%string, Ttrait); ("true"%string, Tboollit);
   ("type"%string, Ttype); ("union"%string, Tunion); ("use"%string, Tuse); ("var"%string, Tvar); ("void"%string, Tvoidlit);
   ("while"%string, Twhile)].

(* strcmp on strings without zero bytes *)
Fixpoint strcmp (a b : text) : comparison :=
  match a, b with
  | [], [] => Eq
  | [], _ :: _ => Lt
  | _ :: _, [] => Gt
  | x :: a, y :: b => match x ?= y with Eq => strcmp a b | c => c end
  end.

(* kwd, parse/tok.c:170-224; None: the loop of the model was cut short *)
Fixpoint kwsearch (fuel : nat) (tbl : list (text * tt)) (s : text) (min max : nat) : option tt :=
  match fuel with
  | O => None
  | S fuel =>
      if Nat.ltb min max then
        let mid := Nat.div2 (max + min) in
        let e := nth mid tbl ([], Tident) in
        match strcmp s (fst e) with
        | Eq => Some (snd e)
        | Gt => kwsearch fuel tbl s (S mid) max
        | Lt => kwsearch fuel tbl s min mid
        end
      else Some Tident
  end.
Definition kwd (s : text) : option tt := kwsearch (S (length kwmap)) kwmap s 0 (length kwmap).

(* identstr, parse/tok.c:226-239, with a buffer of sz bytes: the bytes stored and what is left.
   The terminator is stored at index i, which is outside the buffer when i = sz. *)
Fixpoint identscan (room : nat) (s : text) : text * text :=
  match room, s with
  | S room, c :: s1 => if identchar c then let '(id, r) := identscan room s1 in (c :: id, r) else ([], s)
  | _, _ => ([], s)
  end.
Definition identstr (sz : nat) (s : text) : res (text * text) :=
  let '(id, r) := identscan sz s in
  if Nat.ltb (length id) sz then Ok (id, r) else Ub.

(* encode and appendc, parse/tok.c:272-315, on a code point below 2^21; the buffer of append
   (parse/tok.c:255-270) is a list *)
Definition encode (len : nat) (c : N) : text :=
  match len with
  | 1%nat => [c]
  | 2%nat => [N.lor (c / 64) 0xc0; N.lor (N.land c 0x3f) 0x80]
  | 3%nat => [N.lor (c / 64 / 64) 0xe0; N.lor (N.land (c / 64) 0x3f) 0x80; N.lor (N.land c 0x3f) 0x80]
  | _ => [N.lor (c / 64 / 64 / 64) 0xf0; N.lor (N.land (c / 64 / 64) 0x3f) 0x80; N.lor (N.land (c / 64) 0x3f) 0x80;
          N.lor (N.land c 0x3f) 0x80]
  end.
Definition appendc (c : N) : option text :=
  if c <? 0x80 then Some (encode 1 c)
  else if c <? 0x800 then Some (encode 2 c)
  else if c <? 0x10000 then Some (encode 3 c)
  else if c <? 0x200000 then Some (encode 4 c)
  else None.

(* hexval, parse/tok.c:329-342; None: lfatal.  ishexval (317-327) and isxdigit test the same. *)
Definition hexval (c : N) : option N :=
  if (97 <=? c) && (c <=? 102) then Some (c - 97 + 10)
  else if (65 <=? c) && (c <=? 70) then Some (c - 65 + 10)
  else if (48 <=? c) && (c <=? 57) then Some (c - 48)
  else None.

(* unichar, parse/tok.c:344-365: the digits and the closing brace (125) *)
Fixpoint unidigits (v : N) (s : text) : res (N * text) :=
  match s with
  | [] => Fatal
  | c :: s1 =>
      match hexval c with
      | Some d => let v := 16 * v + d in if 0x10FFFF <? v then Fatal else unidigits v s1
      | None => if c =? 125 then Ok (v, s1) else Fatal
      end
  end.
Definition unichar (s : text) : res (N * text) :=
  match mtch 123 s with Some s => unidigits 0 s | None => Fatal end.

(* decode, parse/tok.c:372-406: the value returned, the bytes appended, and what is left *)
Definition decode (s : text) : res (N * text * text) :=
  match s with
  | [] => Fatal
  | c :: s =>
      if c =? 117 then                                      (* u *)
        match unichar s with
        | Ok (v, s) => match appendc v with Some b => Ok (v, b, s) | None => Fatal end
        | Fatal => Fatal | Ub => Ub | Fuel => Fuel
        end
      else if c =? 120 then                                 (* x *)
        match s with
        | c1 :: c2 :: s =>
            match hexval c1, hexval c2 with
            | Some a, Some b => Ok (16 * a + b, [16 * a + b], s)
            | _, _ => Fatal
            end
        | _ => Fatal
        end
      else if c =? 110 then Ok (10, [10], s)
      else if c =? 114 then Ok (13, [13], s)
      else if c =? 116 then Ok (9, [9], s)
      else if c =? 98 then Ok (8, [8], s)
      else if c =? 34 then Ok (34, [34], s)
      else if c =? 39 then Ok (39, [39], s)
      else if c =? 118 then Ok (11, [11], s)
      else if c =? 92 then Ok (92, [92], s)
      else if c =? 48 then Ok (0, [0], s)
      else Fatal
  end.

(* strlit, parse/tok.c:408-443, after the opening quote (34) *)
Fixpoint strlit (fuel : nat) (s : text) : res (text * text) :=
  match fuel with
  | O => Fuel
  | S fuel =>
      match s with
      | [] => Fatal
      | c :: s1 =>
          if c =? 34 then Ok ([], s1)
          else if c =? 255 then Fatal
          else if c =? 10 then Fatal
          else if c =? 92 then
            match decode s1 with
            | Ok (_, b, s2) =>
                match strlit fuel s2 with Ok (r, s3) => Ok ((b ++ r)%list, s3) | r => r end
            | Fatal => Fatal | Ub => Ub | Fuel => Fuel
            end
          else match strlit fuel s1 with Ok (r, s3) => Ok (c :: r, s3) | r => r end
      end
  end.

(* readutf, parse/tok.c:445-473, after the first byte c; the continuation bytes *)
Fixpoint utfcont (n : nat) (val : N) (s : text) : res (N * text) :=
  match n with
  | O => Ok (val, s)
  | S n => match s with
           | [] => Fatal                                   (* next() is -1, and -1 & 0xc0 is 0xc0 *)
           | c :: s => if N.land c 0xc0 =? 0x80 then utfcont n (N.lor (val * 64) (N.land c 0x3f)) s else Fatal
           end
  end.
Definition readutf (c : N) (s : text) : res (N * text) :=
  if N.land c 0x80 =? 0 then utfcont 0 (N.land c 0x7f) s
  else if N.land c 0xe0 =? 0xc0 then utfcont 1 (N.land c 0x3f) s
  else if N.land c 0xf0 =? 0xe0 then utfcont 2 (N.land c 0x1f) s
  else if N.land c 0xf8 =? 0xf0 then utfcont 3 (N.land c 0x0f) s
  else Fatal.

(* charlit, parse/tok.c:475-505, after the opening quote (39) *)
Definition charlit (s : text) : res (N * text) :=
  match s with
  | [] => Fatal
  | c :: s =>
      if c =? 255 then Fatal
      else if c =? 10 then Fatal
      else
        match (if c =? 92 then match decode s with Ok (v, _, s) => Ok (v, s) | Fatal => Fatal | Ub => Ub | Fuel => Fuel end
               else readutf c s) with
        | Ok (v, s) => match mtch 39 s with Some s => Ok (v, s) | None => Fatal end
        | r => r
        end
  end.

(* oper, parse/tok.c:507-651; if m then: the code's if (match('m')) *)
Definition ifm {A} (m : N) (s : text) (yes : text -> A) (no : A) : A :=
  match mtch m s with Some r => yes r | None => no end.
Definition oper (s : text) : option (tt * text) :=
  match s with
  | [] => None
  | c :: s =>
      if c =? 123 then Some (Tobrace, s)
      else if c =? 125 then Some (Tcbrace, s)
      else if c =? 40 then Some (Toparen, s)
      else if c =? 41 then Some (Tcparen, s)
      else if c =? 91 then Some (Tosqbrac, s)
      else if c =? 93 then Some (Tcsqbrac, s)
      else if c =? 44 then Some (Tcomma, s)
      else if c =? 96 then Some (Ttick, s)
      else if c =? 35 then Some (Tderef, s)
      else if c =? 63 then Some (Tqmark, s)
      else if c =? 58 then ifm 58 s (fun s => Some (Twith, s)) (Some (Tcolon, s))
      else if c =? 126 then Some (Tbnot, s)
      else if c =? 59 then ifm 59 s (fun s => Some (Tendblk, s)) (Some (Tendln, s))
      else if c =? 46 then
        ifm 46 s (fun s2 => ifm 46 s2 (fun s3 => Some (Tellipsis, s3)) (Some (Tdot, s))) (Some (Tdot, s))
      else if c =? 43 then
        ifm 61 s (fun s => Some (Taddeq, s)) (ifm 43 s (fun s => Some (Tinc, s)) (Some (Tplus, s)))
      else if c =? 45 then
        ifm 61 s (fun s => Some (Tsubeq, s)) (ifm 45 s (fun s => Some (Tdec, s))
          (ifm 62 s (fun s => Some (Tret, s)) (Some (Tminus, s))))
      else if c =? 42 then ifm 61 s (fun s => Some (Tmuleq, s)) (Some (Tmul, s))
      else if c =? 47 then ifm 61 s (fun s => Some (Tdiveq, s)) (Some (Tdiv, s))
      else if c =? 37 then ifm 61 s (fun s => Some (Tmodeq, s)) (Some (Tmod, s))
      else if c =? 61 then ifm 61 s (fun s => Some (Teq, s)) (Some (Tasn, s))
      else if c =? 124 then
        ifm 61 s (fun s => Some (Tboreq, s)) (ifm 124 s (fun s => Some (Tlor, s)) (Some (Tbor, s)))
      else if c =? 38 then
        ifm 61 s (fun s => Some (Tbandeq, s)) (ifm 38 s (fun s => Some (Tland, s)) (Some (Tband, s)))
      else if c =? 94 then ifm 61 s (fun s => Some (Tbxoreq, s)) (Some (Tbxor, s))
      else if c =? 60 then
        ifm 61 s (fun s => Some (Tle, s))
          (ifm 60 s (fun s => ifm 61 s (fun s => Some (Tbsleq, s)) (Some (Tbsl, s))) (Some (Tlt, s)))
      else if c =? 62 then
        ifm 61 s (fun s => Some (Tge, s))
          (ifm 62 s (fun s => ifm 61 s (fun s => Some (Tbsreq, s)) (Some (Tbsr, s))) (Some (Tgt, s)))
      else if c =? 33 then ifm 61 s (fun s => Some (Tne, s)) (Some (Tlnot, s))
      else None
  end.

(* number, parse/tok.c:653-782.  The loop over digits: the characters collected, whether the
   number is a float, and what is left; None: lfatal *)
Definition sizeofbuf : N := 2048.
Fixpoint numloop (base : N) (maybefloat : bool) (nbuf : N) (isfloat : bool) (s : text) : option (text * bool * text) :=
  match s with
  | [] => Some ([], isfloat, [])
  | c :: s1 =>
      if isxdigit c || (maybefloat && (c =? 46)) || (c =? 95) then
        if c =? 95 then numloop base maybefloat nbuf isfloat s1
        else if sizeofbuf - 1 <=? nbuf then None
        else if c =? 46 then
          match numloop base maybefloat (nbuf + 1) true s1 with Some (b, f, r) => Some (c :: b, f, r) | None => None end
        else if (base =? 10) && ((c =? 101) || (c =? 69)) then
          match s1 with
          | d :: s2 =>
              if ((d =? 43) || (d =? 45)) && (nbuf + 1 <? sizeofbuf - 1) then
                match numloop base maybefloat (nbuf + 2) true s2 with Some (b, f, r) => Some (c :: d :: b, f, r) | None => None end
              else
                match numloop base maybefloat (nbuf + 1) true s1 with Some (b, f, r) => Some (c :: b, f, r) | None => None end
          | [] => match numloop base maybefloat (nbuf + 1) true s1 with Some (b, f, r) => Some (c :: b, f, r) | None => None end
          end
        else match hexval c with
             | Some d =>
                 if base <=? d then None
                 else match numloop base maybefloat (nbuf + 1) isfloat s1 with Some (b, f, r) => Some (c :: b, f, r) | None => None end
             | None => None
             end
      else Some ([], isfloat, s)
  end.

(* strtoull on a buffer of digits of the base: the value, at most 2^64 - 1 (overflow sets errno,
   which the caller does not look at); None: no digits *)
Fixpoint digitsval (base : N) (v : N) (b : text) : N :=
  match b with
  | [] => v
  | c :: b => digitsval base (base * v + match hexval c with Some d => d | None => 0 end) b
  end.
Definition strtoull (base : N) (b : text) : option N :=
  match b with [] => None | _ => Some (N.min (digitsval base 0 b) (2 ^ 64 - 1)) end.

Inductive ity := Ity8 | Ity16 | Ity32 | Ity64.
(* the suffix, parse/tok.c:727-779: (unsigned, size), or nothing, and what is left *)
Definition sizesuffix (c : N) : option ity :=
  if (c =? 108) || (c =? 76) then Some Ity64
  else if (c =? 105) || (c =? 73) then Some Ity32
  else if (c =? 115) || (c =? 83) then Some Ity16
  else if (c =? 98) || (c =? 66) then Some Ity8
  else None.
Definition suffix (s : text) : option (option (bool * ity) * text) :=
  match s with
  | [] => Some (None, s)
  | c :: s1 =>
      if (c =? 117) || (c =? 85) then
        match s1 with
        | [] => None
        | d :: s2 => match sizesuffix d with Some t => Some (Some (true, t), s2) | None => None end
        end
      else match sizesuffix c with
           | Some t => Some (Some (false, t), s1)
           | None => Some (None, s)
           end
  end.

Inductive tok :=
| Eof
| Op (t : tt)
| Word (t : tt) (id : text)                    (* identifiers and keywords *)
| Str (b : text)
| Chr (c : N)
| Int (v : N) (t : option (bool * ity))
| Flt (buf : text)                             (* strtod of buf; the conversion is not modelled *)
| Typaram (id : text).

Definition number (base : N) (maybefloat : bool) (s : text) : res (tok * text) :=
  match numloop base maybefloat 0 false s with
  | None => Fatal
  | Some (b, true, r) => if base =? 10 then Ok (Flt b, r) else Fatal
  | Some (b, false, r) =>
      match strtoull base b with
      | None => Fatal
      | Some v => match suffix r with Some (t, r) => Ok (Int v t, r) | None => Fatal end
      end
  end.
(* numlit, parse/tok.c:784-806; 120 is x, 98 is b, 111 is o *)
Definition numlit (maybefloat : bool) (s : text) : res (tok * text) :=
  match mtch 48 s with
  | Some s1 =>
      match mtch 120 s1 with
      | Some s2 => number 16 maybefloat s2
      | None => match mtch 98 s1 with
                | Some s2 => number 2 maybefloat s2
                | None => match mtch 111 s1 with
                          | Some s2 => number 8 maybefloat s2
                          | None => number 10 maybefloat s
                          end
                end
      end
  | None => number 10 maybefloat s
  end.

(* toknext, parse/tok.c:824-855, with kwident 241-253 and typaram 808-822: the token, its line
   (loc.line, taken by mktok), the text left and the line counter.  afterdot: the previous token
   was a dot. *)
Definition toknext (afterdot : bool) (line : N) (s : text) : res (tok * N * text * N) :=
  match eatspace (S (length s)) false line s with
  | Fatal => Fatal | Ub => Ub | Fuel => Fuel
  | Ok (s, line) =>
      if atend s then Ok (Eof, line, s, line)
      else match s with
      | [] => Ok (Eof, line, s, line)
      | c :: s1 =>
          if c =? 10 then Ok (Op Tendln, line + 1, s1, line + 1)
          else if isalpha c || (c =? 95) || (c =? 36) then
            match identstr 1024 s with
            | Ok (id, r) => match kwd id with Some t => Ok (Word t id, line, r, line) | None => Fuel end
            | Fatal => Fatal | Ub => Ub | Fuel => Fuel
            end
          else if c =? 34 then
            match strlit (S (length s1)) s1 with
            | Ok (b, r) => Ok (Str b, line, r, line) | Fatal => Fatal | Ub => Ub | Fuel => Fuel
            end
          else if c =? 39 then
            match charlit s1 with
            | Ok (v, r) => Ok (Chr v, line, r, line) | Fatal => Fatal | Ub => Ub | Fuel => Fuel
            end
          else if isdigit c then
            match numlit (negb afterdot) s with
            | Ok (t, r) => Ok (t, line, r, line) | Fatal => Fatal | Ub => Ub | Fuel => Fuel
            end
          else if c =? 64 then
            match identstr 1024 s1 with
            | Ok ([], r) => Fatal
            | Ok (id, r) => Ok (Typaram id, line, r, line)
            | Fatal => Fatal | Ub => Ub | Fuel => Fuel
            end
          else match oper s with Some (t, r) => Ok (Op t, line, r, line) | None => Fatal end
      end
  end.

Definition isdot (t : tok) : bool := match t with Op Tdot => true | _ => false end.

(* yylex until end of file, parse/tok.c:901-908: the tokens with their lines *)
Fixpoint lex (fuel : nat) (afterdot : bool) (line : N) (s : text) : res (list (tok * N)) :=
  match fuel with
  | O => Fuel
  | S fuel =>
      match toknext afterdot line s with
      | Fatal => Fatal | Ub => Ub | Fuel => Fuel
      | Ok (Eof, l, _, _) => Ok [(Eof, l)]
      | Ok (t, l, s, line) =>
          match lex fuel (isdot t) line s with Ok ts => Ok ((t, l) :: ts) | r => r end
      end
  end.
(* tokinit, parse/tok.c:883-896: a first line starting with #! is skipped when the file has more
   than 2 bytes *)
Fixpoint skipline (s : text) : text * N :=
  match s with [] => ([], 1) | c :: s => if c =? 10 then (s, 2) else skipline s end.
Definition lexfile (s : text) : res (list (tok * N)) :=
  let '(s, line) := match s with
                    | c :: d :: _ :: _ => if (c =? 35) && (d =? 33) then skipline s else (s, 1)
                    | _ => (s, 1)
                    end in
  lex (S (length s)) false line s.
