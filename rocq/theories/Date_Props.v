(* C69 to C73: dates. *)
From Verif Require Import Base Date_Model Date_Spec Date_Proofs.
Open Scope Z_scope.
Ltac Zify.zify_post_hook ::= Z.to_euclidean_division_equations.
Local Opaque daynumber year1.

(* the fields of i, read as a date and time of the calendar *)
Definition shown (i : instant) : Z := epochtime (year i) (mon i) (day i) (h i) (m i) (s i) (us i).
Definition wellformed (i : instant) : Prop := 1 <= year i /\ isdate (year i) (mon i) (day i) /\ istime (h i) (m i) (s i) (us i).

(* C69: from the year 1 on, breaking up a time never fails, gives an existing date and time of day, and that date and
   time are exactly the given time, shifted by the zone's offset. *)
Theorem C69_fields tm off : year1 <= tm + off ->
  exists i, mkinstantoff tm off = Some i /\ actual i = tm /\ tzoff i = off /\ wellformed i /\ shown i = tm + off.
Proof.
  intros T. pose proof (civil_civd _ T) as C. rewrite year1_val in T. unfold mkinstantoff. rewrite C.
  assert (J : 307 <= (tm + off) / DayUsec + 719469) by (unfold DayUsec in *; lia).
  pose proof (civd_ok _ J) as K. destruct (civd ((tm + off) / DayUsec + 719469)) as [[y mo] d]. destruct K as (Y & D & N).
  set (z := tm + off) in *. clearbody z.
  assert (E : exists t e, (if Z.rem z DayUsec <? 0 then (Z.rem z DayUsec + DayUsec, Z.quot z DayUsec - 1) else (Z.rem z DayUsec, Z.quot z DayUsec)) = (t, e) /\ t = z mod DayUsec /\ e = z / DayUsec).
  { destruct (Z.rem z DayUsec <? 0) eqn:R; rewrite ?Z.ltb_lt, ?Z.ltb_ge in R; do 2 eexists; (split; [reflexivity|]); unfold DayUsec in *; lia. }
  destruct E as (t & e & -> & Et & Ee). eexists. split; [reflexivity|]. cbn [actual tzoff]. split; [reflexivity|]. split; [reflexivity|].
  unfold wellformed, shown, epochtime. cbn [year mon day h m s us]. rewrite daynumber_dn by (unfold isdate in D; lia). rewrite epoch_dn, N.
  assert (0 <= t < DayUsec) by (unfold DayUsec in *; lia).
  split; [split; [auto|split; [auto|]]|].
  - unfold istime. unfold DayUsec in *. clear - H. lia.
  - replace z with (DayUsec * (z / DayUsec) + z mod DayUsec) by (unfold DayUsec; lia). rewrite <- Et, <- Ee in *. clear - H. unfold DayUsec in *. lia.
Qed.
Print Assumptions C69_fields.
Example C69_fields_example : year1 <= 1709164800000000 + 3600000000 /\ mkinstantoff 1709164800000000 3600000000 = Some (mkinst 1709164800000000 3600000000 2024 2 29 4 1 0 0 0).
Proof. split; [rewrite year1_val; vm_compute; discriminate|reflexivity]. Qed.

(* C69: there is only one date and time of day for each time *)
Theorem C69_unique y mo d hh mm ss u y' mo' d' hh' mm' ss' u' : 1 <= y -> 1 <= y' -> isdate y mo d -> isdate y' mo' d' ->
  istime hh mm ss u -> istime hh' mm' ss' u' -> epochtime y mo d hh mm ss u = epochtime y' mo' d' hh' mm' ss' u' ->
  (y, mo, d, hh, mm, ss, u) = (y', mo', d', hh', mm', ss', u').
Proof.
  intros Y Y' D D' T T' E. unfold epochtime in E. pose proof D as (M & _). pose proof D' as (M' & _).
  rewrite !daynumber_dn in E by lia. unfold istime in *. set (a := dn y mo d) in *. set (b := dn y' mo' d') in *. set (c := dn 1970 1 1) in *.
  assert (a = b) by (clear - E T T'; clearbody a b c; lia).
  destruct (dn_inj _ _ _ _ _ _ D D' H) as (-> & -> & ->). rewrite H in E. clear - E T T'. clearbody b c. assert (hh = hh') by lia. assert (mm = mm') by lia. assert (ss = ss') by lia. assert (u = u') by lia. congruence.
Qed.
Print Assumptions C69_unique.
Example C69_unique_example : isdate 2000 2 29 /\ istime 23 59 59 999999 /\ ~ isdate 1900 2 29.
Proof. unfold isdate, istime. cbn. lia. Qed.

(* C69: from 1969-12-28 on, the day of the week is right *)
Theorem C69_weekday tm off i : -4 * 86400000000 <= tm + off -> mkinstantoff tm off = Some i -> wday i = weekday (year i) (mon i) (day i).
Proof.
  intros T E. destruct (C69_fields tm off) as (i' & E' & _ & _ & W & S); [rewrite year1_val; unfold DayUsec; lia|].
  assert (i' = i) by congruence. subst i'. unfold mkinstantoff in E. unfold shown, epochtime in S. destruct W as (_ & _ & W). unfold istime in W.
  assert (N : daynumber (year i) (mon i) (day i) - daynumber 1970 1 1 = (tm + off) / DayUsec).
  { clear E. set (n := daynumber (year i) (mon i) (day i) - daynumber 1970 1 1) in *. clearbody n. unfold DayUsec. lia. }
  unfold weekday. rewrite N. destruct (Z.rem (tm + off) DayUsec <? 0) eqn:R; rewrite ?Z.ltb_lt, ?Z.ltb_ge in R; destruct (civil (tm + off)) as [[[y mo] d]|]; try discriminate; injection E as <-; cbn [wday] in *; clear - T R; unfold DayUsec in *; lia.
Qed.
Print Assumptions C69_weekday.
Example C69_weekday_example : exists i, mkinstantoff (-345600000000) 0 = Some i /\ wday i = 0 /\ day i = 28.
Proof. eexists. split; [reflexivity|split; reflexivity]. Qed.

(* C69 is false before: 1969-12-27 gets the weekday -1 (not 6), with which the name of the day cannot be looked up *)
Theorem C69_weekday_refuted : exists tm i, year1 <= tm /\ mkinstantoff tm 0 = Some i /\ wday i <> weekday (year i) (mon i) (day i) /\ wday i < 0.
Proof.
  exists (-432000000000). eexists. split; [rewrite year1_val; vm_compute; discriminate|]. split; [vm_compute; reflexivity|].
  cbn [wday year mon day]. split; [|reflexivity]. unfold weekday. rewrite daynumber_dn, epoch_dn by lia. vm_compute. discriminate.
Qed.
Print Assumptions C69_weekday_refuted.

(* C69 is false before the year 1: some days have no existing date, and different days are given the same date *)
Theorem C69_early_refuted :
  (exists tm i, mkinstantoff tm 0 = Some i /\ ~ isdate (year i) (mon i) (day i)) /\
  (exists tm tm' i i', tm + DayUsec <= tm' /\ mkinstantoff tm 0 = Some i /\ mkinstantoff tm' 0 = Some i' /\
     (year i, mon i, day i) = (year i', mon i', day i')).
Proof.
  split.
  - exists ((-1 - 719469) * DayUsec). eexists. split; [vm_compute; reflexivity|]. cbn [year mon day]. unfold isdate. lia.
  - exists ((-26 - 719469) * DayUsec), ((8 - 719469) * DayUsec). do 2 eexists. split; [vm_compute; discriminate|].
    split; [vm_compute; reflexivity|]. split; vm_compute; reflexivity.
Qed.
Print Assumptions C69_early_refuted.

(* the time recalc computes from fields that form a date and time *)
Lemma recalc_shown i : 1 <= year i -> 1 <= mon i <= 12 -> recalc i = shown i.
Proof.
  intros Y M. rewrite recalc_rec, rec_ok by auto. unfold shown, epochtime. rewrite daynumber_dn, epoch_dn by auto.
  unfold DayUsec. ring.
Qed.
Lemma epoch_min y mo d hh mm ss u : 1 <= y -> isdate y mo d -> istime hh mm ss u -> year1 <= epochtime y mo d hh mm ss u.
Proof.
  intros Y D T. rewrite year1_val. unfold epochtime. rewrite epoch_dn, daynumber_dn by (unfold isdate in D; lia).
  pose proof (dn_year _ _ _ D). pose proof (ysum_mono 0 (y - 1)). assert (ysum 0 = 0) by reflexivity. unfold istime in T. unfold DayUsec.
  assert (0 <= dn y mo d) by lia. clear - H2 T. lia.
Qed.
Lemma fields_eq i y mo d hh mm ss u : wellformed i -> 1 <= y -> isdate y mo d -> istime hh mm ss u ->
  shown i = epochtime y mo d hh mm ss u -> year i = y /\ mon i = mo /\ day i = d /\ h i = hh /\ m i = mm /\ s i = ss /\ us i = u.
Proof.
  intros (Y & D & T) Y' D' T' E. unfold shown in E.
  pose proof (C69_unique _ _ _ _ _ _ _ _ _ _ _ _ _ _ Y Y' D D' T T' E) as H. inversion H. auto 10.
Qed.
Lemma mk_at tm off y mo d hh mm ss u : 1 <= y -> isdate y mo d -> istime hh mm ss u -> tm + off = epochtime y mo d hh mm ss u ->
  exists w, mkinstantoff tm off = Some (mkinst tm off y mo d w hh mm ss u).
Proof.
  intros Y D T E. destruct (C69_fields tm off) as (i & I & A & O & W & S); [rewrite E; apply epoch_min; auto|].
  rewrite E in S. destruct (fields_eq _ _ _ _ _ _ _ _ W Y D T S) as (? & ? & ? & ? & ? & ? & ?).
  exists (wday i). rewrite I. f_equal. destruct i; cbn in *; congruence.
Qed.

(* C70: in UTC, making an instant from a date and a time of day gives that date and time, at the right moment. *)
Theorem C70_utc y mo d hh mm ss : 1 <= y -> isdate y mo d -> istime hh mm ss 0 ->
  exists w, mkdatetime y mo d hh mm ss 0 = Some (mkinst (epochtime y mo d hh mm ss 0) 0 y mo d w hh mm ss 0).
Proof.
  intros Y D T. unfold mkdatetime. rewrite recalc_shown by (cbn; unfold isdate in D; lia). unfold shown. cbn [year mon day h m s us].
  apply mk_at; auto. lia.
Qed.
Print Assumptions C70_utc.
Example C70_utc_example : mkdatetime 2024 2 29 23 59 58 0 = Some (mkinst 1709251198000000 0 2024 2 29 4 23 59 58 0) /\ isdate 2024 2 29.
Proof. split; [reflexivity|unfold isdate; cbn; lia]. Qed.

(* C70 is false in every zone with an offset: the instant made never shows the date and time asked for *)
Theorem C70_zone_refuted y mo d hh mm ss off : 1 <= y -> isdate y mo d -> istime hh mm ss 0 -> off <> 0 ->
  year1 <= epochtime y mo d hh mm ss 0 + off ->
  exists i, mkdatetime y mo d hh mm ss off = Some i /\ (year i, mon i, day i, h i, m i, s i, us i) <> (y, mo, d, hh, mm, ss, 0).
Proof.
  intros Y D T O B. unfold mkdatetime. rewrite recalc_shown by (cbn; unfold isdate in D; lia). unfold shown. cbn [year mon day h m s us].
  destruct (C69_fields _ _ B) as (i & I & _ & _ & _ & S). exists i. split; [exact I|]. intros F. inversion F. unfold shown in S. rewrite H0, H1, H2, H3, H4, H5, H6 in S. lia.
Qed.
Print Assumptions C70_zone_refuted.
(* New York, 2020-01-01: the instant shows 2019-12-31 *)
Example C70_zone_example : mkdate 2020 1 1 (-5 * 3600000000) = Some (mkinst 1577836800000000 (-18000000000) 2019 12 31 2 19 0 0 0).
Proof. reflexivity. Qed.

(* C71: adding a duration moves the moment and the shown time by it; duration measures it *)
Theorem C71_add tm off i dt : mkinstantoff tm off = Some i -> year1 <= tm + off -> year1 <= tm + dt + off ->
  exists j, add i dt = Some j /\ duration i j = dt /\ shown j = shown i + dt /\ sub j dt = Some i.
Proof.
  intros E A B. destruct (C69_fields _ _ A) as (i' & E' & Ai & Oi & _ & Si). assert (i' = i) by congruence. subst i'.
  destruct (C69_fields _ _ B) as (j & J & Aj & Oj & _ & Sj). exists j. unfold add, duration, sub. rewrite Ai, Oi, Aj, Oj.
  split; [exact J|]. split; [lia|]. split; [lia|]. replace (tm + dt - dt) with tm by lia. exact E.
Qed.
Print Assumptions C71_add.
Example C71_add_example : exists i, mkinstantoff 0 3600000000 = Some i /\ year1 <= 0 + 86400000000 + 3600000000.
Proof. eexists. split; [vm_compute; reflexivity|rewrite year1_val; vm_compute; discriminate]. Qed.

(* the moment a period of n days, hours, minutes or seconds later *)
Definition span (p : period) : option Z :=
  match p with
  | Day n => Some (n * 86400000000) | Hour n => Some (n * 3600000000) | Minute n => Some (n * 60000000) | Second n => Some (n * 1000000)
  | _ => None
  end.
Lemma shift_recalc i p k : 1 <= year i -> 1 <= mon i <= 12 -> span p = Some k -> recalc (shift i p) = shown i + k /\ recalc (unshift i p) = shown i - k.
Proof.
  intros Y M K. rewrite <- recalc_shown by auto. rewrite !recalc_rec. destruct i as [a o y mo d w hh mm ss u], p; cbn [shift unshift year mon day h m s us] in *; try discriminate; injection K as <-;
    split; try (unfold DayUsec; ring); [rewrite rec_day|replace (d - n) with (d + - n) by lia; rewrite rec_day]; unfold DayUsec; ring.
Qed.
(* C71: adding or subtracting days, hours, minutes and seconds in UTC *)
Theorem C71_span tm i p k : mkinstantoff tm 0 = Some i -> year1 <= tm -> span p = Some k ->
  (year1 <= tm + k -> addperiod i p = mkinstantoff (tm + k) 0) /\ (year1 <= tm - k -> subperiod i p = mkinstantoff (tm - k) 0).
Proof.
  intros E T K. destruct (C69_fields tm 0) as (i' & E' & Ai & Oi & W & Si); [lia|]. assert (i' = i) by congruence. subst i'.
  destruct W as (Y & (M & _) & _). destruct (shift_recalc i p k Y M K) as (A & B). unfold addperiod, subperiod. rewrite A, B, Oi, Si, Z.add_0_r. auto.
Qed.
Print Assumptions C71_span.
Example C71_span_example : exists i, mkinstantoff 951782400000000 0 = Some i /\ addperiod i (Day 1) = mkinstantoff (951782400000000 + 86400000000) 0 /\ day i = 29 /\ mon i = 2.
Proof. eexists. split; [vm_compute; reflexivity|]. split; [vm_compute; reflexivity|split; reflexivity]. Qed.

(* C71: in UTC, adding years keeps month, day and time when the date exists *)
Theorem C71_year tm i n : mkinstantoff tm 0 = Some i -> year1 <= tm -> 1 <= year i + n -> isdate (year i + n) (mon i) (day i) ->
  exists j, addperiod i (Year n) = Some j /\ (year j, mon j, day j, h j, m j, s j, us j) = (year i + n, mon i, day i, h i, m i, s i, us i).
Proof.
  intros E T Y D. destruct (C69_fields tm 0) as (i' & E' & Ai & Oi & W & Si); [lia|]. assert (i' = i) by congruence. subst i'. clear E'.
  destruct W as (Y0 & (M & _) & Ti). unfold addperiod. rewrite recalc_shown; [|destruct i; cbn in *; lia..]. rewrite Oi.
  destruct (mk_at (shown (shift i (Year n))) 0 _ _ _ _ _ _ _ Y D Ti) as (w & ->); [destruct i as [a o y mo d w hh mm ss u]; unfold shown; cbn [shift year mon day h m s us]; lia|].
  eexists. split; [reflexivity|]. reflexivity.
Qed.
Print Assumptions C71_year.
Example C71_year_example : exists i j, mkinstantoff 951782400000000 0 = Some i /\ addperiod i (Year 4) = Some j /\ (year j, mon j, day j) = (2004, 2, 29) /\ isdate 2004 2 29.
Proof.
  do 2 eexists. split; [vm_compute; reflexivity|]. split; [vm_compute; reflexivity|]. split; [reflexivity|].
  unfold isdate; cbn; lia.
Qed.

(* C71_partial: in UTC, adding months gives the same day and time of the month asked for when that day exists - as long
   as the count of months ends no later than February of the next year and no earlier than March of the year before
   the last *)
Theorem C71_month_partial tm i n y' mo' : mkinstantoff tm 0 = Some i -> year1 <= tm ->
  -9 <= mon i + n <= 14 -> 12 * y' + mo' = 12 * year i + mon i + n -> 1 <= y' -> isdate y' mo' (day i) ->
  exists j, addperiod i (Month n) = Some j /\ (year j, mon j, day j, h j, m j, s j, us j) = (y', mo', day i, h i, m i, s i, us i).
Proof.
  intros E T R C Y D. destruct (C69_fields tm 0) as (i' & E' & Ai & Oi & W & Si); [lia|]. assert (i' = i) by congruence. subst i'. clear E'.
  destruct W as (Y0 & (M & _) & Ti). unfold addperiod. rewrite Oi.
  assert (K : carry (year i) (mon i + n) = (y', mo')).
  { destruct D as (M' & _). unfold carry. destruct (mon i + n <? 1) eqn:A; rewrite ?Z.ltb_lt, ?Z.ltb_ge in A; [f_equal; lia|].
    destruct (12 <? mon i + n) eqn:B; rewrite ?Z.ltb_lt, ?Z.ltb_ge in B; f_equal; lia. }
  assert (X : recalc (shift i (Month n)) = epochtime y' mo' (day i) (h i) (m i) (s i) (us i)).
  { rewrite recalc_rec. destruct i as [a o y mo d w hh mm ss u]. cbn [shift year mon day h m s us] in *. rewrite rec_carry by auto. rewrite K.
    destruct D as (M' & _). rewrite rec_ok by auto. unfold epochtime. rewrite daynumber_dn, epoch_dn by auto. unfold DayUsec. ring. }
  destruct (mk_at (recalc (shift i (Month n))) 0 _ _ _ _ _ _ _ Y D Ti) as (w & ->); [lia|]. eexists. split; reflexivity.
Qed.
Print Assumptions C71_month_partial.
Example C71_month_example : exists i j, mkinstantoff 951782400000000 0 = Some i /\ addperiod i (Month 11) = Some j /\ (year j, mon j, day j) = (2001, 1, 29) /\ isdate 2001 1 29.
Proof.
  do 2 eexists. split; [vm_compute; reflexivity|]. split; [vm_compute; reflexivity|]. split; [reflexivity|].
  unfold isdate; cbn; lia.
Qed.

(* C71 is false for a whole year given in months: 2021-05-15 plus 12 months is 2022-05-17 *)
Theorem C71_month_refuted : exists i j, mkdate 2021 5 15 0 = Some i /\ addperiod i (Month 12) = Some j /\ isdate 2022 5 15 /\
  (year j, mon j, day j) <> (2022, 5, 15).
Proof. do 2 eexists. split; [vm_compute; reflexivity|]. split; [vm_compute; reflexivity|]. split; [unfold isdate; cbn; lia|]. cbn. discriminate. Qed.
Print Assumptions C71_month_refuted.

(* C71 is false outside UTC: adding (even zero) days, hours, minutes or seconds also moves the moment by the offset *)
Theorem C71_zone_refuted tm off i p k : mkinstantoff tm off = Some i -> year1 <= tm + off -> span p = Some k -> year1 <= tm + off + k + off ->
  off <> 0 -> exists j, addperiod i p = Some j /\ actual j = tm + off + k /\ actual j <> tm + k.
Proof.
  intros E T K B O. destruct (C69_fields tm off) as (i' & E' & Ai & Oi & W & Si); [lia|]. assert (i' = i) by congruence. subst i'.
  destruct W as (Y & (M & _) & _). destruct (shift_recalc i p k Y M K) as (A & _). unfold addperiod. rewrite A, Oi, Si.
  destruct (C69_fields (tm + off + k) off B) as (j & J & Aj & _). exists j. rewrite Aj. split; [exact J|]. split; [lia|]. lia.
Qed.
Print Assumptions C71_zone_refuted.
Example C71_zone_example : exists i j, mkinstantoff 1577836800000000 (5 * 3600000000) = Some i /\ h i = 5 /\ addperiod i (Hour 1) = Some j /\ h j = 11.
Proof. do 2 eexists. split; [vm_compute; reflexivity|]. split; [reflexivity|]. split; [vm_compute; reflexivity|reflexivity]. Qed.

(* isleap says whether the year of an instant is a leap year of the calendar. *)
Theorem C69_isleap i : isleap i = leap (year i).
Proof.
  unfold isleap, leap. f_equal; [|f_equal; [f_equal|]]; apply Bool.eq_true_iff_eq; rewrite !Z.eqb_eq;
    rewrite Z.rem_divide, Z.mod_divide by lia; reflexivity.
Qed.
Print Assumptions C69_isleap.
Example C69_isleap_example : option_map isleap (mkdatetime 2000 3 1 0 0 0 0) = Some true /\ option_map isleap (mkdatetime 1900 3 1 0 0 0 0) = Some false.
Proof. vm_compute. split; reflexivity. Qed.
