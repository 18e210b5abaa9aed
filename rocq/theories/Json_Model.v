(* Model of lib/json: parse.myr (the parser) and fmt.myr (the printer).  Bytes are numbers below 256, a char is an
   unsigned 32-bit number as in Utf_Model.  The type of numbers and std.flt64parse and the printing of a flt64 are
   parameters.  Freeing memory is left out. *)
From Verif Require Import Base Utf_Spec Utf_Model Json_Spec.
From Verif Require Str_Model IntFmt_Model.
From Coq Require Import NArith ZArith.
Open Scope N_scope.

(* errtype, lib/json/types.myr:19-24 *)
Inductive errtype := Badesc (c : N) | Junk (c : N) | Depth | End.
(* parser, lib/json/parse.myr:12-18.  Instead of str and idx, rest is str[idx:]. *)
Record parser := mkp { rest : list N; depth : Z; line : Z; off : Z }.
(* how a call ends: a result and the parser afterwards; an error with its position; Stop: a slice out of bounds or a
   failed assertion aborts the program; Hang: the fuel of the model is used up *)
Inductive res (A : Type) := Ok (a : A) (p : parser) | Er (e : errtype) (line off : Z) | Stop | Hang.
Arguments Ok {A}. Arguments Er {A}. Arguments Stop {A}. Arguments Hang {A}.
Definition bind {A B} (m : res A) (k : A -> parser -> res B) : res B :=
  match m with Ok a p => k a p | Er e l o => Er e l o | Stop => Stop | Hang => Hang end.
Definition Maxdepth : Z := 1024.   (* lib/json/parse.myr:10 *)

(* an error at the parser's position: [.e=e, .line=p.line, .off=p.off] *)
Definition fail {A} (p : parser) (e : errtype) : res A := Er e (line p) (off p).

(* takespace, lib/json/parse.myr:361-375 *)
Fixpoint spaces (s : list N) (l o : Z) : list N * Z * Z :=
  match s with
  | c :: s' => if c =? 32 then spaces s' l o
               else if c =? 9 then spaces s' l o
               else if c =? 13 then spaces s' l o
               else if c =? 10 then spaces s' (l + 1)%Z 1%Z
               else (s, l, o)
  | [] => (s, l, o)
  end.
Definition takespace (p : parser) : parser := let '(s, l, o) := spaces (rest p) (line p) (off p) in mkp s (depth p) l o.
(* peekc, lib/json/parse.myr:377-379 *)
Definition peekc (p : parser) : N := decode (rest p).
(* takec, lib/json/parse.myr:381-395.  Moving idx past the end is reported here as an abort; in the code the next
   slice aborts. *)
Definition takec (p : parser) : res N :=
  match rest p with
  | [] => Ok Badchar p
  | _ => let c := decode (rest p) in
         if (length (rest p) <? charlen c)%nat then Stop
         else let s := skipn (charlen c) (rest p) in
              if c =? 10 then Ok c (mkp s (depth p) (line p + 1) 1) else Ok c (mkp s (depth p) (line p) (off p + 1))
  end.
(* enter and exit, lib/json/parse.myr:397-404 *)
Definition enter (p : parser) : parser * bool :=
  let p := mkp (rest p) (depth p + 1) (line p) (off p) in (p, (depth p <=? Maxdepth)%Z).
Definition exit (p : parser) : parser := mkp (rest p) (depth p - 1) (line p) (off p).
(* unescaped, lib/json/parse.myr:355-359 *)
Definition unescaped (c : N) : bool :=
  (c =? 0x20) || (c =? 0x21) || ((0x23 <=? c) && (c <=? 0x5b)) || ((0x5d <=? c) && (c <=? 0x10ffff)).
(* matchprefix, lib/json/parse.myr:347-353 *)
Definition matchprefix (p : parser) (pfx : list N) : option parser :=
  if Str_Model.hasprefix (rest p) pfx then Some (mkp (skipn (length pfx) (rest p)) (depth p) (line p) (off p)) else None.
(* unichar, lib/json/parse.myr:330-345: i more digits.  The value returned is None for `std.None *)
Fixpoint unichar (i : nat) (c : N) (p : parser) : res (option N) :=
  match i with
  | O => Ok (Some c) p
  | S i => bind (takec p) (fun ch p =>
             let n := IntFmt_Model.charval ch 16 in
             if (n =? -1)%Z then Ok None p else unichar i (c + Z.to_N n * 16) p)
  end.
(* the loop of jsonstr, lib/json/parse.myr:286-322; sb is the content of the string buffer, to which
   sbputc appends the encoding of a char (C32) *)
Fixpoint strloop (fuel : nat) (sb : list N) (p : parser) : res (list N) :=
  match fuel with
  | O => Hang
  | S fuel =>
      match rest p with
      | [] => fail p End
      | _ => bind (takec p) (fun c p =>
          if c =? 92 then bind (takec p) (fun c p =>
            if c =? 34 then strloop fuel (sb ++ utf8 34) p
            else if c =? 92 then strloop fuel (sb ++ utf8 92) p
            else if c =? 47 then strloop fuel (sb ++ utf8 47) p
            else if c =? 98 then strloop fuel (sb ++ utf8 8) p
            else if c =? 110 then strloop fuel (sb ++ utf8 10) p
            else if c =? 102 then strloop fuel (sb ++ utf8 12) p
            else if c =? 114 then strloop fuel (sb ++ utf8 13) p
            else if c =? 116 then strloop fuel (sb ++ utf8 9) p
            else if c =? 117 then bind (unichar 4 0 p) (fun u p =>
              match u with Some c => strloop fuel (sb ++ utf8 c) p | None => fail p (Badesc 117) end)
            else fail p (Badesc c))
          else if c =? 34 then Ok sb p
          else if c =? Badchar then fail p (Junk Badchar)
          else if unescaped c then strloop fuel (sb ++ utf8 c) p
          else fail p (Junk c))
      end
  end.
(* jsonstr, lib/json/parse.myr:276-328 *)
Definition jsonstr (p : parser) : res (list N) :=
  bind (takec p) (fun c p => if c =? 34 then strloop (S (length (rest p))) [] p else fail p (Junk c)).

(* the loops over digits in parsenum, lib/json/parse.myr:229-235, 244-250, 261-267: whether there was one, and what
   follows them *)
Definition isdigit (c : N) : bool := (48 <=? c) && (c <=? 57).   (* lib/std/chartype.myr:1549-1551 *)
Fixpoint digitloop (s : list N) (ok : bool) : bool * list N :=
  match s with c :: s' => if isdigit c then digitloop s' true else (ok, s) | [] => (ok, s) end.
(* parsenum, lib/json/parse.myr:217-274, as far as it moves idx: what follows the number *)
Definition numint (s : list N) : option (list N) :=
  if decode s =? 48 then Some (tl s) else let '(ok, s) := digitloop s false in if ok then Some s else None.
Definition numfrac (s : list N) : option (list N) :=
  if decode s =? 46 then let '(ok, s) := digitloop (tl s) false in if ok then Some s else None else Some s.
Definition numexp (s : list N) : option (list N) :=
  if (decode s =? 101) || (decode s =? 69) then
    let s := tl s in
    let s := if (decode s =? 43) || (decode s =? 45) then tl s else s in
    let '(ok, s) := digitloop s false in if ok then Some s else None
  else Some s.
Definition numspan (s : list N) : option (list N) :=
  let s := if decode s =? 45 then tl s else s in
  match numint s with
  | None => None
  | Some s => match numfrac s with None => None | Some s => numexp s end
  end.

Section numbers.
  Context {num : Type} (flt64parse : list N -> option num) (flt64fmt : num -> list N).
  (* parsenum, lib/json/parse.myr:217-274 *)
  Definition parsenum (p : parser) : option (num * parser) :=
    match numspan (rest p) with
    | None => None
    | Some s => match flt64parse (firstn (length (rest p) - length s) (rest p)) with
                | Some n => Some (n, mkp s (depth p) (line p) (off p))
                | None => None
                end
    end.
  (* member, lib/json/parse.myr:139-162; value is parseelt *)
  Definition member (value : parser -> res (elt num)) (p : parser) : res (list N * elt num) :=
    bind (jsonstr (takespace p)) (fun str p =>
      bind (takec (takespace p)) (fun c p =>
        if c =? 58 then bind (value (takespace p)) (fun v p => Ok (str, v) p) else fail p (Junk c))).
  (* parseelt, lib/json/parse.myr:68-90; parseobj, :92-137; parsearr, :164-208; parsestr, :210-215; objloop and arrloop
     are the while loops *)
  Fixpoint parseelt (fuel : nat) (p : parser) : res (elt num) :=
    match fuel with
    | O => Hang
    | S fuel =>
        let p := takespace p in
        let chr := peekc p in
        if chr =? 123 then bind (takec p) (fun c p =>
          if negb (c =? 123) then Stop
          else let '(p, ok) := enter p in
               if ok then let p := takespace p in
                          if peekc p =? 125 then bind (takec p) (fun _ p => Ok (Obj []) p) else objloop fuel [] p
               else fail p Depth)
        else if chr =? 91 then bind (takec p) (fun c p =>
          if negb (c =? 91) then Stop
          else let '(p, ok) := enter p in
               if ok then let p := takespace p in
                          if peekc p =? 93 then bind (takec p) (fun _ p => Ok (Arr []) p) else arrloop fuel [] p
               else fail p Depth)
        else if chr =? 34 then bind (jsonstr p) (fun s p => Ok (Str s) p)
        else match matchprefix p [102; 97; 108; 115; 101] with
        | Some p => Ok (Bool false) p
        | None => match matchprefix p [116; 114; 117; 101] with
        | Some p => Ok (Bool true) p
        | None => match matchprefix p [110; 117; 108; 108] with
        | Some p => Ok Null p
        | None =>
            if isdigit (peekc p) || (peekc p =? 45) then
              match parsenum p with Some (n, p) => Ok (Num n) p | None => fail p (Junk chr) end
            else fail p (Junk chr)
        end end end
    end
  with objloop (fuel : nat) (membs : list (list N * elt num)) (p : parser) : res (elt num) :=
    match fuel with
    | O => Hang
    | S fuel =>
        if peekc p =? 125 then Ok (Obj membs) (exit p)
        else bind (member (parseelt fuel) p) (fun m p =>
          let membs := membs ++ [m] in
          bind (takec (takespace p)) (fun c p =>
            if c =? 44 then objloop fuel membs p
            else if c =? 125 then Ok (Obj membs) (exit p)
            else if c =? Badchar then fail p End
            else fail p (Junk c)))
    end
  with arrloop (fuel : nat) (elts : list (elt num)) (p : parser) : res (elt num) :=
    match fuel with
    | O => Hang
    | S fuel =>
        bind (parseelt fuel p) (fun e p =>
          let elts := elts ++ [e] in
          bind (takec (takespace p)) (fun c p =>
            if c =? 44 then arrloop fuel elts p
            else if c =? 93 then Ok (Arr elts) (exit p)
            else if c =? Badchar then fail p End
            else fail p (Junk c)))
    end.
  (* parse, lib/json/parse.myr:20-45.  The fuel is enough: Json_Props. *)
  Definition parse (str : list N) : res (elt num) :=
    bind (parseelt (S (2 * length str)) (mkp str 0 1 1)) (fun j p =>
      let p := takespace p in
      match rest p with [] => Ok j p | _ => fail p (Junk (decode (rest p))) end).

  (* jstrfmt, lib/json/fmt.myr:33-46 *)
  Definition jchar (c : N) : list N :=
    if c =? 12 then [92; 102] else if c =? 92 then [92; 92] else if c =? 10 then [92; 110]
    else if c =? 13 then [92; 114] else if c =? 9 then [92; 116] else [c].
  Definition jstrfmt (s : list N) : list N := [34] ++ concat (map jchar s) ++ [34].
  (* indent, lib/json/fmt.myr:82-86 *)
  Definition indent (ind : nat) : list N := repeat 9 ind.
  (* the loops of arrfmt and objfmt, lib/json/fmt.myr:53-58, 70-77 *)
  Definition sepfmt {A} (fmt : A -> list N) : list N -> nat -> list A -> list N :=
    fix loop (sep : list N) (ind : nat) (l : list A) {struct l} : list N :=
      match l with [] => [] | x :: l => sep ++ indent (ind + 1) ++ fmt x ++ loop [44; 10] ind l end.
  (* eltfmt, arrfmt, objfmt, lib/json/fmt.myr:21-31, 48-80 *)
  Fixpoint eltfmt (e : elt num) (ind : nat) : list N :=
    match e with
    | Null => [110; 117; 108; 108]
    | Bool b => if b then [116; 114; 117; 101] else [102; 97; 108; 115; 101]
    | Num n => flt64fmt n
    | Str s => jstrfmt s
    | Arr a => [91; 10] ++ sepfmt (fun e => eltfmt e (ind + 1)) [] ind a ++ [10] ++ indent ind ++ [93]
    | Obj o => [123; 10] ++ sepfmt (fun kv => jstrfmt (fst kv) ++ [58; 32] ++ eltfmt (snd kv) (ind + 1)) [] ind o ++ [10] ++ indent ind ++ [125]
    end.
  (* jsonfmt, lib/json/fmt.myr:14-19 *)
  Definition jsonfmt (e : elt num) : list N := eltfmt e 0.
End numbers.
