(* Model of lib/date/date.myr, of the date and time directives of lib/date/fmt.myr and lib/date/parse.myr, and of the
   offset lookup of lib/date/zoneinfo+posixy.myr.  Times are microseconds.  All values are unbounded integers: for times
   of at most 2^62 microseconds either side of 1970 no int64 of the calendar code wraps.  '/' and '%' truncate (Z.quot,
   Z.rem).  Strings are lists of bytes; one character is one byte, which is exact for ASCII text. *)
From Verif Require Import Base Word Endian_Model IntFmt_Model.
From Verif Require Str_Model.
Open Scope Z_scope.

(* lib/date/date.myr:30-33 *)
Definition Days400y := 365 * 400 + 4 * 25 - 3.
Definition Days4y := 365 * 4 + 1.
Definition DayUsec := 24 * 60 * 60 * 1000000.
Definition Mdays := [31; 28; 31; 30; 31; 30; 31; 31; 30; 31; 30; 31].

(* instant, lib/date/types.myr:4-17, without the zone's name *)
Record instant := mkinst { actual : Z; tzoff : Z; year : Z; mon : Z; day : Z; wday : Z; h : Z; m : Z; s : Z; us : Z }.

(* the calendar part of mkinstantoff, lib/date/date.myr:118-155: year, month and day of a local time.  None is the
   failed bounds check of Mdays[m - 1]. *)
Definition civil (tm : Z) : option (Z * Z * Z) :=
  let j := Z.quot (tm + 2440588 * DayUsec) DayUsec in
  let j := j - 1721119 in
  let y := Z.quot (4 * j - 1) Days400y in
  let j := 4 * j - 1 - Days400y * y in
  let d := Z.quot j 4 in
  let j := Z.quot (4 * d + 3) Days4y in
  let d := 4 * d + 3 - Days4y * j in
  let d := Z.quot (d + 4) 4 in
  let m := Z.quot (5 * d - 3) 153 in
  let d := 5 * d - 3 - 153 * m in
  let d := Z.quot (d + 5) 5 in
  let y := 100 * y + j in
  let '(m, y) := if m <? 10 then (m + 3, y) else (m - 9, y + 1) in
  let y := if y <=? 0 then y - 1 else y in
  let m := if m <? 0 then m + 12 else m in
  if d <? 0 then
    if (0 <=? m - 1) && (m - 1 <? 12) then Some (y, m, d + nth (Z.to_nat (m - 1)) Mdays 0) else None
  else Some (y, m, d).

(* mkinstantoff, lib/date/date.myr:75-157 *)
Definition mkinstantoff (tm0 off : Z) : option instant :=
  let tm := tm0 + off in
  let t := Z.rem tm DayUsec in
  let e := Z.quot tm DayUsec in
  let '(t, e) := if t <? 0 then (t + DayUsec, e - 1) else (t, e) in
  let us := Z.rem t 1000000 in
  let t := Z.quot t 1000000 in
  let s := Z.rem t 60 in
  let t := Z.quot t 60 in
  let m := Z.rem t 60 in
  let t := Z.quot t 60 in
  match civil tm with
  | None => None
  | Some (y, mo, d) => Some (mkinst tm0 off y mo d (Z.rem (e + 4) 7) t m s us)
  end.

(* recalc, lib/date/date.myr:210-236 *)
Definition recalc (i : instant) : Z :=
  let '(m', y) := if 2 <? mon i then (mon i - 3, year i) else (mon i + 9, year i - 1) in
  let d := day i in
  let c := Z.quot y 100 in
  let ya := y - 100 * c in
  let j := Z.quot (c * Days400y) 4 + Z.quot (Days4y * ya) 4 + Z.quot (153 * m' + 2) 5 + d - 719469 in
  j * DayUsec + h i * 3600 * 1000000 + m i * 60 * 1000000 + s i * 1000000 + us i.

(* mkdatetime, lib/date/date.myr:54-66, and mkdate, :50-52 (with h = m = s = 0), in a zone whose offset is off at the
   time recalc returns *)
Definition mkdatetime (y mo d hh mm ss off : Z) : option instant :=
  mkinstantoff (recalc (mkinst 0 0 y mo d 0 hh mm ss 0)) off.
Definition mkdate (y mo d off : Z) : option instant := mkdatetime y mo d 0 0 0 off.

(* isleap, lib/date/date.myr:170-172 *)
Definition isleap (i : instant) : bool :=
  (Z.rem (year i) 4 =? 0) && (negb (Z.rem (year i) 100 =? 0) || (Z.rem (year i) 400 =? 0)).

(* add and sub, lib/date/date.myr:174-180; duration, :206-208 *)
Definition add (i : instant) (dt : Z) : option instant := mkinstantoff (actual i + dt) (tzoff i).
Definition sub (i : instant) (dt : Z) : option instant := mkinstantoff (actual i - dt) (tzoff i).
Definition duration (a b : instant) : Z := actual b - actual a.

(* period, lib/date/types.myr:21-28 *)
Inductive period := Year (n : Z) | Month (n : Z) | Day (n : Z) | Hour (n : Z) | Minute (n : Z) | Second (n : Z).

(* addperiod, lib/date/date.myr:182-192 *)
Definition shift (i : instant) (p : period) : instant :=
  let '(mkinst a o y mo d w hh mm ss u) := i in
  match p with
  | Year n => mkinst a o (y + n) mo d w hh mm ss u
  | Month n => mkinst a o y (mo + n) d w hh mm ss u
  | Day n => mkinst a o y mo (d + n) w hh mm ss u
  | Hour n => mkinst a o y mo d w (hh + n) mm ss u
  | Minute n => mkinst a o y mo d w hh (mm + n) ss u
  | Second n => mkinst a o y mo d w hh mm (ss + n) u
  end.
Definition addperiod (i : instant) (p : period) : option instant := mkinstantoff (recalc (shift i p)) (tzoff i).
(* subperiod, lib/date/date.myr:194-204 *)
Definition unshift (i : instant) (p : period) : instant :=
  let '(mkinst a o y mo d w hh mm ss u) := i in
  match p with
  | Year n => mkinst a o (y - n) mo d w hh mm ss u
  | Month n => mkinst a o y (mo - n) d w hh mm ss u
  | Day n => mkinst a o y mo (d - n) w hh mm ss u
  | Hour n => mkinst a o y mo d w (hh - n) mm ss u
  | Minute n => mkinst a o y mo d w hh (mm - n) ss u
  | Second n => mkinst a o y mo d w hh mm (ss - n) u
  end.
Definition subperiod (i : instant) (p : period) : option instant := mkinstantoff (recalc (unshift i p)) (tzoff i).

(* the lookup at the end of findtzoff, lib/date/zoneinfo+posixy.myr:76-84: times and types are the transition times and
   the kind of local time each starts, gmtoff the offsets of the kinds in seconds.  Outer None: `std.None; the inner
   result is None when timetype[i] or ttinfo[...] is out of bounds. *)
Fixpoint scan (cur : Z) (times : list Z) (i : nat) : nat :=
  match times with
  | [] => i
  | t :: times => if cur <? t then scan cur times (S i) else i
  end.
Definition tzlookup (times : list Z) (types : list nat) (gmtoff : list Z) (tm : Z) : option (option Z) :=
  let cur := cast int32 (Z.quot tm 1000000) in
  match times with
  | [] => None
  | _ => Some (match nth_error types (scan cur times 0) with
               | None => None
               | Some k => match nth_error gmtoff k with None => None | Some g => Some (g * 1000000) end
               end)
  end.

(* "{}" and "{p=0,w=2}" applied to an int (to a std.time for the zone offset; same text) *)
Definition num (v : Z) : list N := match fmtint (mkip 10 0 32) int64 v with Out t => t | _ => [] end.
Definition num2 (v : Z) : list N := match fmtint (mkip 10 2 48) int64 v with Out t => t | _ => [] end.

(* timezone, lib/date/fmt.myr:91-104 *)
Definition timezone (off : Z) : list N :=
  let '(sep, off) := if off <? 0 then (45%N, - off) else (43%N, off) in
  let off := Z.quot off 1000000 in
  let h := Z.quot off 3600 in
  let m := Z.rem off 3600 in
  [sep] ++ num2 h ++ num2 m.

(* one format: literal characters and directives.  A format string is given here as the list of its pieces. *)
Inductive piece := Lit (c : N) | PY | Pm | Pd | PH | PI | PM | PS | Pz | PP.
(* "%Y-%m-%d %H:%M:%S %z", Datetimefmt, lib/date/types.myr:34 *)
Definition Datetimefmt : list piece :=
  [PY; Lit 45; Pm; Lit 45; Pd; Lit 32; PH; Lit 58; PM; Lit 58; PS; Lit 32; Pz]%N.
(* the same with a twelve hour clock, "%Y-%m-%d %I:%M:%S %P %z" *)
Definition ampmfmt : list piece :=
  [PY; Lit 45; Pm; Lit 45; Pd; Lit 32; PI; Lit 58; PM; Lit 58; PS; Lit 32; PP; Lit 32; Pz]%N.

(* datefmt, lib/date/fmt.myr:35-89, for these directives; ["am", "pm"][d.h/12] is bounds checked: None *)
Definition piecefmt (p : piece) (d : instant) : option (list N) :=
  match p with
  | Lit c => Some [c]
  | PY => Some (num (year d))
  | Pm => Some (num2 (mon d))
  | Pd => Some (num2 (day d))
  | PH => Some (num2 (h d))
  | PI => Some (num2 (Z.rem (h d) 12))
  | PM => Some (num2 (m d))
  | PS => Some (num2 (s d))
  | Pz => Some (timezone (tzoff d))
  | PP => if Z.quot (h d) 12 =? 0 then Some [97; 109]%N else if Z.quot (h d) 12 =? 1 then Some [112; 109]%N else None
  end.
Fixpoint datefmt (f : list piece) (d : instant) : option (list N) :=
  match f with
  | [] => Some []
  | p :: f => match piecefmt p d, datefmt f d with Some a, Some b => Some (a ++ b) | _, _ => None end
  end.

(* isdigit, lib/std/chartype.myr:1549-1551 *)
Definition isdigit (c : N) : bool := ((48 <=? c) && (c <=? 57))%N.
(* isspace, lib/std/chartype.myr:1588-1590, on ASCII: blank, tab, newline *)
Definition isspace (c : N) : bool := ((c =? 32) || (c =? 9) || (c =? 10))%N.

(* intval, lib/date/parse.myr:243-272: at least min, at most max digits.  The number of further digits taken: *)
Fixpoint more (max : nat) (t : list N) : nat :=
  match max, t with
  | S max, c :: t => if isdigit c then S (more max t) else 0%nat
  | _, _ => 0%nat
  end.
Definition intval (t : list N) (min max : nat) : option (Z * list N) :=
  if (length (firstn min t) =? min)%nat && forallb isdigit (firstn min t) then
    let k := (min + more (max - min) (skipn min t))%nat in
    match intparse int64 (firstn k t) with Some v => Some (v, skipn k t) | None => None end
  else None.

(* tzoffset, lib/date/parse.myr:177-196 *)
Definition tzoffset (t : list N) : option (Z * list N) :=
  match t with
  | [] => None
  | c :: t =>
      match (if (c =? 45)%N then Some (-1) else if (c =? 43)%N then Some 1 else None) with
      | None => None
      | Some sgn =>
          match intval t 2 4 with
          | None => None
          | Some (v, t) => Some (sgn * Z.quot v 100 * 3600 * 1000000 + Z.rem v 100 * 60 * 1000000, t)
          end
      end
  end.

Fixpoint eatspace (t : list N) : list N :=
  match t with c :: t' => if isspace c then eatspace t' else t | [] => [] end.

(* filldate, lib/date/parse.myr:67-135, for the directives above.  No directive occurs twice in the formats used
   here, so the set of directives seen is left out.  am is the am/pm mark seen so far. *)
Fixpoint filldate (f : list piece) (d : instant) (am : option bool) (t : list N) : option (instant * option bool * list N) :=
  let '(mkinst a o y mo dd w hh mm ss u) := d in
  match f with
  | [] => Some (d, am, t)
  | p :: f =>
      match p with
      | Lit c =>
          match t with
          | [] => None
          | c' :: t => if isspace c && isspace c' then filldate f d am (eatspace t)
                       else if negb (c' =? c)%N then None else filldate f d am t
          end
      | PY => match intval t 1 4 with Some (v, t) => filldate f (mkinst a o v mo dd w hh mm ss u) am t | None => None end
      | Pm => match intval t 1 2 with Some (v, t) => filldate f (mkinst a o y v dd w hh mm ss u) am t | None => None end
      | Pd => match intval t 2 2 with Some (v, t) => filldate f (mkinst a o y mo v w hh mm ss u) am t | None => None end
      | PH => match intval t 1 2 with Some (v, t) => filldate f (mkinst a o y mo dd w v mm ss u) am t | None => None end
      | PI => match intval t 1 2 with Some (v, t) => filldate f (mkinst a o y mo dd w v mm ss u) am t | None => None end
      | PM => match intval t 1 2 with Some (v, t) => filldate f (mkinst a o y mo dd w hh v ss u) am t | None => None end
      | PS => match intval t 1 2 with Some (v, t) => filldate f (mkinst a o y mo dd w hh mm v u) am t | None => None end
      | Pz => match tzoffset t with Some (v, t) => filldate f (mkinst a v y mo dd w hh mm ss u) am t | None => None end
      | PP => match t with
              | c1 :: c2 :: t =>
                  if ((c1 =? 97) && (c2 =? 109) || (c1 =? 65) && (c2 =? 77))%N then filldate f d (Some true) t
                  else if ((c1 =? 112) && (c2 =? 109) || (c1 =? 80) && (c2 =? 77))%N then filldate f d (Some false) t
                  else None
              | _ => None
              end
      end
  end.

Definition zeroinst := mkinst 0 0 0 0 0 0 0 0 0 0.
(* strparse without replacing the zone, lib/date/parse.myr:44-65 (parsefmt), with the end of filldate, :136-153: the time
   is computed first, then am/pm corrects the hour.  Text left over is not looked at. *)
Definition parsefmt (f : list piece) (t : list N) : option instant :=
  match filldate f zeroinst None t with
  | None => None
  | Some (d, am, _) =>
      let a := recalc d in
      let '(mkinst _ o y mo dd w hh mm ss u) := d in
      let hh := match am with None => hh | Some true => Z.rem hh 12 | Some false => Z.rem hh 12 + 12 end in
      Some (mkinst (a - o) o y mo dd w hh mm ss u)
  end.
