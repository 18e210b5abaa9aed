(* The proleptic Gregorian calendar, for C69 to C73. *)
From Verif Require Import Base.
Open Scope Z_scope.

(* leap years: every fourth year, but not the centuries, except every fourth century *)
Definition leap (y : Z) : bool := (y mod 4 =? 0) && (negb (y mod 100 =? 0) || (y mod 400 =? 0)).
Definition monthlen (y mo : Z) : Z :=
  if mo =? 2 then (if leap y then 29 else 28)
  else if (mo =? 4) || (mo =? 6) || (mo =? 9) || (mo =? 11) then 30 else 31.
Definition yearlen (y : Z) : Z := if leap y then 366 else 365.

(* y-mo-d is a day of the calendar *)
Definition isdate (y mo d : Z) : Prop := 1 <= mo <= 12 /\ 1 <= d <= monthlen y mo.
(* hh:mm:ss.us is a time of day *)
Definition istime (hh mm ss us : Z) : Prop := 0 <= hh < 24 /\ 0 <= mm < 60 /\ 0 <= ss < 60 /\ 0 <= us < 1000000.

(* the sums of the lengths of the years 1 .. n and of the months 1 .. n *)
Fixpoint years (n : nat) : Z := match n with O => 0 | S n => years n + yearlen (Z.of_nat (S n)) end.
Fixpoint months (y : Z) (n : nat) : Z := match n with O => 0 | S n => months y n + monthlen y (Z.of_nat (S n)) end.
(* how many days y-mo-d is after 0001-01-01, for years from 1 *)
Definition daynumber (y mo d : Z) : Z := years (Z.to_nat (y - 1)) + months y (Z.to_nat (mo - 1)) + (d - 1).

(* microseconds from 1970-01-01 00:00 to the given date and time *)
Definition epochtime (y mo d hh mm ss us : Z) : Z :=
  ((daynumber y mo d - daynumber 1970 1 1) * 24 * 3600 + hh * 3600 + mm * 60 + ss) * 1000000 + us.
(* the day of the week, 0 for Sunday; 1970-01-01 was a Thursday *)
Definition weekday (y mo d : Z) : Z := (daynumber y mo d - daynumber 1970 1 1 + 4) mod 7.
(* 0001-01-01 00:00 *)
Definition year1 : Z := epochtime 1 1 1 0 0 0 0.
