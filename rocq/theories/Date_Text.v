(* C72, C73: dates as text, and the offset of a zone. *)
From Verif Require Import Base Word Endian_Model IntFmt_Model Date_Model Date_Spec Date_Proofs Date_Props IntFmt_Spec IntFmt_Props.
Open Scope Z_scope.
Ltac Zify.zify_post_hook ::= Z.to_euclidean_division_equations.
Lemma num_is v : num v = match fmtint (mkip 10 0 32) int64 v with Out t => t | _ => [] end. Proof. reflexivity. Qed.
Local Opaque daynumber year1 intparse fmtint num num2.

(* ---- numbers ---- *)
Lemma more_all ds : forall max rest, forallb isdigit ds = true -> (length ds <= max)%nat ->
  (length ds = max \/ match rest with c :: _ => isdigit c = false | [] => True end) -> more max (ds ++ rest) = length ds.
Proof.
  induction ds as [|c ds IH]; cbn [forallb length app]; intros max rest D L R.
  - destruct R as [R|R]; [destruct max; [reflexivity|discriminate]|]. destruct max, rest; cbn; auto. rewrite R. reflexivity.
  - apply andb_prop in D as [D1 D2]. destruct max as [|max]; [lia|]. cbn [more]. rewrite D1. f_equal. apply IH; auto; [lia|].
    destruct R; [left; lia|right; auto].
Qed.
Lemma forallb_firstn {A} (f : A -> bool) n : forall l, forallb f l = true -> forallb f (firstn n l) = true.
Proof. induction n; intros [|x l] H; cbn in *; auto. apply andb_prop in H as [-> H]. cbn. auto. Qed.
Lemma forallb_skipn {A} (f : A -> bool) n : forall l, forallb f l = true -> forallb f (skipn n l) = true.
Proof. induction n; intros [|x l] H; cbn in *; auto. apply andb_prop in H as [_ H]. auto. Qed.
Lemma intval_ok ds rest min max v : forallb isdigit ds = true -> (min <= length ds <= max)%nat ->
  (length ds = max \/ match rest with c :: _ => isdigit c = false | [] => True end) ->
  intparse int64 ds = Some v -> intval (ds ++ rest) min max = Some (v, rest).
Proof.
  intros D L R P. unfold intval.
  rewrite firstn_app. replace (min - length ds)%nat with 0%nat by lia. cbn [firstn]. rewrite app_nil_r. rewrite firstn_length_le, Nat.eqb_refl by lia.
  rewrite (forallb_firstn _ _ _ D). cbn [andb]. rewrite skipn_app. replace (min - length ds)%nat with 0%nat by lia. cbn [skipn].
  rewrite more_all; [|apply forallb_skipn; auto|rewrite skipn_length; lia|rewrite skipn_length; destruct R; [left; lia|right; auto]].
  rewrite skipn_length. replace (min + (length ds - min))%nat with (length ds) by lia.
  rewrite firstn_app, Nat.sub_diag, firstn_all. cbn [firstn]. rewrite app_nil_r, P, skipn_app, Nat.sub_diag, skipn_all. reflexivity.
Qed.
Definition chk2 (v : Z) : bool :=
  (99 <? v) || (forallb isdigit (num2 v) && (length (num2 v) =? 2)%nat && match intparse int64 (num2 v) with Some x => x =? v | None => false end).
Lemma chk2_all : allr 7 0 chk2 = true. Proof. vm_compute. reflexivity. Qed.
Lemma num2_ok v : 0 <= v <= 99 -> forallb isdigit (num2 v) = true /\ length (num2 v) = 2%nat /\ intparse int64 (num2 v) = Some v.
Proof.
  intros V. pose proof (allr_ok 7 0 chk2 chk2_all v) as C. unfold chk2 in C. change (2 ^ Z.of_nat 7) with 128 in C. specialize (C ltac:(lia)).
  apply orb_prop in C as [C|C]; [rewrite Z.ltb_lt in C; lia|]. apply andb_prop in C as [C P]. apply andb_prop in C as [D L]. apply Nat.eqb_eq in L.
  destruct (intparse int64 (num2 v)); [|discriminate]. apply Z.eqb_eq in P. subst. auto.
Qed.
Lemma positional_ge ds : forall a, 0 <= a -> Forall (fun d => 0 <= d < 10) ds ->
  a * 10 ^ Z.of_nat (length ds) <= fold_left (fun a d => a * 10 + d) ds a.
Proof.
  induction ds as [|d ds IH]; intros a A F; [cbn; lia|]. inversion F; subst. cbn [fold_left length].
  specialize (IH (a * 10 + d) ltac:(lia) ltac:(assumption)).
  rewrite Nat2Z.inj_succ, Z.pow_succ_r by lia. pose proof (Z.pow_pos_nonneg 10 (Z.of_nat (length ds)) ltac:(lia) ltac:(lia)) as P. clear - IH P A H1. nia.
Qed.
Lemma num4_ok v : 1 <= v <= 9999 -> forallb isdigit (num v) = true /\ (1 <= length (num v) <= 4)%nat /\ intparse int64 (num v) = Some v.
Proof.
  intros V. assert (T : In int64 integer_types) by (cbn; auto 12). assert (VO : value_of int64 v) by (unfold value_of; cbn; lia).
  destruct (C37_format_is_numeral (mkip 10 0 32) int64 v T VO ltac:(cbn; lia) ltac:(cbn; lia) ltac:(right; reflexivity)) as (t & E & SP).
  assert (NE : num v = t) by (rewrite num_is, E; reflexivity). rewrite NE.
  unfold spelling in SP. cbn [base] in SP. destruct SP as (t' & NU & ET). replace (v <? 0) with false in ET by (symmetry; apply Z.ltb_ge; lia). cbn [app] in ET.
  subst t. destruct (C37_parse_numeral int64 10 v t' 0 T VO ltac:(lia) NU) as (_ & P).
  specialize (P eq_refl). replace (v <? 0) with false in P by (symmetry; apply Z.ltb_ge; lia). cbn [repeat app] in P.
  destruct NU as (ds & -> & F & PO & NZ). split; [|split; [|exact P]].
  - rewrite forallb_forall. intros c C. apply in_map_iff in C as (d & <- & D). rewrite Forall_forall in F. specialize (F d D).
    unfold digit_char, isdigit. replace (d <? 10) with true by (symmetry; apply Z.ltb_lt; lia).
    apply andb_true_intro. rewrite !N.leb_le. lia.
  - rewrite map_length. destruct NZ as [->|(d & ds' & -> & D)]; [cbn; lia|]. cbn [length]. split; [lia|].
    inversion F; subst. unfold positional in PO. cbn [fold_left] in PO. pose proof (positional_ge ds' (0 * 10 + d) ltac:(lia) ltac:(assumption)) as G.
    rewrite PO in G. destruct (Nat.le_gt_cases (S (length ds')) 4); [assumption|exfalso].
    pose proof (Z.pow_le_mono_r 10 4 (Z.of_nat (length ds')) ltac:(lia) ltac:(lia)) as M. change (10 ^ 4) with 10000 in M.
    assert (Z.abs v = v) by lia. clear - G M H1 D V H0. nia.
Qed.
Lemma read2 v min rest : 0 <= v <= 99 -> (min <= 2)%nat -> intval (num2 v ++ rest) min 2 = Some (v, rest).
Proof. intros V M. destruct (num2_ok v V) as (D & L & P). apply intval_ok; auto; lia. Qed.

(* whole hours *)
Lemma tz_ok k rest : -99 <= k <= 99 -> match rest with c :: _ => isdigit c = false | [] => True end ->
  tzoffset (timezone (k * 3600000000) ++ rest) = Some (k * 3600000000, rest).
Proof.
  intros K R. unfold timezone.
  assert (Q : forall a, 0 <= a -> Z.quot (Z.quot (a * 3600000000) 1000000) 3600 = a /\ Z.rem (Z.quot (a * 3600000000) 1000000) 3600 = 0) by (intros; lia).
  assert (I : forall a, 0 <= a <= 99 -> intval ((num2 a ++ num2 0) ++ rest) 2 4 = Some (a * 100, rest)).
  { intros a A. destruct (num2_ok a A) as (D & L & P). destruct (num2_ok 0 ltac:(lia)) as (D0 & L0 & P0). apply intval_ok; [rewrite forallb_app, D, D0; auto|rewrite app_length, L, L0; lia|rewrite app_length, L, L0; auto|].
    pose proof (allr_ok 7 0 (fun a => (99 <? a) || match intparse int64 (num2 a ++ num2 0) with Some x => x =? a * 100 | None => false end) ltac:(vm_compute; reflexivity) a) as C.
    change (2 ^ Z.of_nat 7) with 128 in C. specialize (C ltac:(lia)). cbv beta in C. apply orb_prop in C as [C|C]; [rewrite Z.ltb_lt in C; lia|].
    destruct (intparse int64 (num2 a ++ num2 0)); [|discriminate]. apply Z.eqb_eq in C. subst. auto. }
  destruct (k * 3600000000 <? 0) eqn:S; rewrite ?Z.ltb_lt, ?Z.ltb_ge in S.
  - replace (- (k * 3600000000)) with (- k * 3600000000) by lia. destruct (Q (- k) ltac:(lia)) as (-> & ->).
    cbn [app]. unfold tzoffset. cbn [N.eqb Pos.eqb]. rewrite I by lia. f_equal. f_equal. lia.
  - destruct (Q k ltac:(lia)) as (-> & ->). cbn [app]. unfold tzoffset. cbn [N.eqb Pos.eqb]. rewrite I by lia. f_equal. f_equal. lia.
Qed.

Lemma eatspace_digit ds rest : (0 < length ds)%nat -> forallb isdigit ds = true -> eatspace (ds ++ rest) = ds ++ rest.
Proof.
  intros L D. destruct ds as [|c ds]; cbn in *; [lia|]. apply andb_prop in D as [D _]. unfold isdigit in D. unfold isspace.
  apply andb_prop in D as [D1 D2]. rewrite N.leb_le in *. replace (c =? 32)%N with false by (symmetry; apply N.eqb_neq; lia).
  replace (c =? 9)%N with false by (symmetry; apply N.eqb_neq; lia). replace (c =? 10)%N with false by (symmetry; apply N.eqb_neq; lia). reflexivity.
Qed.
Lemma eatspace_tz off rest : eatspace (timezone off ++ rest) = timezone off ++ rest.
Proof. unfold timezone. destruct (off <? 0); reflexivity. Qed.

(* C72_partial: an instant of the years 1 to 9999 in a zone whose offset is a whole number of hours, printed in the default
   format and parsed again, is the same date and time in the same zone, to the second.  Missing: offsets that are not
   whole hours, later years, and formats with am and pm (all refuted below). *)
Theorem C72_default_partial tm k i : mkinstantoff tm (k * 3600000000) = Some i -> year1 <= tm + k * 3600000000 -> year i <= 9999 -> -99 <= k <= 99 ->
  exists t j, datefmt Datetimefmt i = Some t /\ parsefmt Datetimefmt t = Some j /\
    (year j, mon j, day j, h j, m j, s j, tzoff j) = (year i, mon i, day i, h i, m i, s i, tzoff i) /\ actual j = tm - us i.
Proof.
  intros E T Y K. destruct (C69_fields _ _ T) as (i' & E' & A & O & (Y1 & D & W) & S). assert (i' = i) by congruence. subst i'. clear E E'.
  destruct i as [a o y mo d w hh mm ss u]. cbn [year mon day h m s us actual tzoff] in *. subst a o. pose proof D as (M & D1). pose proof (monthlen_pos y mo) as ML. pose proof W as (W1 & W2 & W3 & W4).
  eexists. eexists. split; [reflexivity|].
  assert (P : parsefmt Datetimefmt ((num y ++ [45]%N ++ num2 mo ++ [45]%N ++ num2 d ++ [32]%N ++ num2 hh ++ [58]%N ++ num2 mm ++ [58]%N ++ num2 ss ++ [32]%N ++ timezone (k * 3600000000) ++ [])) =
    Some (mkinst (recalc (mkinst 0 (k * 3600000000) y mo d 0 hh mm ss 0) - k * 3600000000) (k * 3600000000) y mo d 0 hh mm ss 0)).
  { destruct (num4_ok y ltac:(lia)) as (N1 & N2 & N3). destruct (num2_ok hh ltac:(lia)) as (H1 & H2 & _).
    unfold parsefmt, Datetimefmt, zeroinst. cbn [filldate]. rewrite (intval_ok _ _ _ _ y N1 N2) by (cbn; auto).
    cbn [app isspace N.eqb Pos.eqb orb andb negb]. rewrite read2 by lia. cbn [isspace N.eqb Pos.eqb orb andb negb]. rewrite read2 by lia.
    cbn [isspace N.eqb Pos.eqb orb andb negb]. rewrite eatspace_digit by (auto; lia). rewrite read2 by lia.
    cbn [isspace N.eqb Pos.eqb orb andb negb]. rewrite read2 by lia. cbn [isspace N.eqb Pos.eqb orb andb negb]. rewrite read2 by lia.
    cbn [isspace N.eqb Pos.eqb orb andb negb]. rewrite eatspace_tz, tz_ok by (auto; lia). reflexivity. }
  split; [exact P|]. cbn [year mon day h m s us actual tzoff]. split; [reflexivity|].
  rewrite recalc_shown by (cbn; auto). unfold shown, epochtime in *. cbn [year mon day h m s us] in *. lia.
Qed.
Print Assumptions C72_default_partial.
Example C72_default_example : exists i, mkinstantoff 1709164800000000 (-9 * 3600000000) = Some i /\ year i <= 9999 /\
  datefmt Datetimefmt i = Some [50;48;50;52;45;48;50;45;50;56;32;49;53;58;48;48;58;48;48;32;45;48;57;48;48]%N.   (* 2024-02-28 15:00:00 -0900 *)
Proof. eexists. split; [vm_compute; reflexivity|]. split; [cbn; lia|vm_compute; reflexivity]. Qed.

(* what comes back from printing and parsing is the same moment, to the second *)
Definition roundtrips (f : list piece) (tm off : Z) : Prop :=
  exists i t j, mkinstantoff tm off = Some i /\ datefmt f i = Some t /\ parsefmt f t = Some j /\ actual j = tm - us i.
Lemma notrip f tm off i t : mkinstantoff tm off = Some i -> datefmt f i = Some t ->
  match parsefmt f t with Some j => actual j <> tm - us i | None => True end -> ~ roundtrips f tm off.
Proof. intros A B C (i' & t' & j & A' & B' & P & J). rewrite A in A'. injection A' as <-. rewrite B in B'. injection B' as <-. rewrite P in C. auto. Qed.

(* C72 is false for offsets with minutes: the printed minutes are seconds (+051800 for five hours and a half) *)
Theorem C72_minutes_refuted : ~ roundtrips Datetimefmt 1577836800000000 19800000000.
Proof. eapply notrip; [vm_compute; reflexivity|vm_compute; reflexivity|]. vm_compute. discriminate. Qed.
Print Assumptions C72_minutes_refuted.
(* C72 is false for text too: "-0330" is read as three hours behind, half an hour ahead *)
Theorem C72_negative_refuted : tzoffset [45; 48; 51; 51; 48]%N = Some (-3 * 3600000000 + 30 * 60000000, []) /\ -3 * 3600000000 + 30 * 60000000 <> - (3 * 3600000000 + 30 * 60000000).
Proof. split; [vm_compute; reflexivity|lia]. Qed.
Print Assumptions C72_negative_refuted.
(* C72 is false from the year 10000: only four digits are read back *)
Theorem C72_year_refuted : exists tm i, mkinstantoff tm 0 = Some i /\ year i = 10000 /\ ~ roundtrips Datetimefmt tm 0.
Proof.
  exists 253402300800000000. eexists. split; [vm_compute; reflexivity|]. split; [reflexivity|]. eapply notrip; [vm_compute; reflexivity|vm_compute; reflexivity|]. vm_compute. exact I.
Qed.
Print Assumptions C72_year_refuted.
(* C72 is false with am and pm: the moment is computed from the hour before pm is added *)
Theorem C72_pm_refuted : ~ roundtrips ampmfmt 1577890800000000 0.     (* 2020-01-01 15:00 UTC *)
Proof. eapply notrip; [vm_compute; reflexivity|vm_compute; reflexivity|]. vm_compute. discriminate. Qed.
Print Assumptions C72_pm_refuted.

(* ---- C73: the offset in force ---- *)
(* k is the kind of local time in force at second cur: the one started by the last transition not after cur *)
Definition inforce (times : list Z) (types : list nat) (cur : Z) (k : nat) : Prop :=
  exists n t, nth_error times n = Some t /\ t <= cur /\ nth_error types n = Some k /\
    forall n' t', (n < n')%nat -> nth_error times n' = Some t' -> cur < t'.
Inductive ascending : list Z -> Prop :=
| asc_nil : ascending []
| asc_cons t ts : (forall t', In t' ts -> t < t') -> ascending ts -> ascending (t :: ts).

Lemma scan_first cur t ts i : t <= cur -> scan cur (t :: ts) i = i.
Proof. intros T. cbn. replace (cur <? t) with false by (symmetry; apply Z.ltb_ge; lia). reflexivity. Qed.
Lemma scan_before cur ts : forall i, (forall t, In t ts -> cur < t) -> scan cur ts i = (i + length ts)%nat.
Proof.
  induction ts as [|t ts IH]; cbn; intros i H; [lia|]. replace (cur <? t) with true by (symmetry; apply Z.ltb_lt; auto). rewrite IH by auto. lia.
Qed.

(* C73_partial: for a zone with a single transition, after it and before 2038, the offset found is the one in force.
   Missing: every other case, see below. *)
Theorem C73_single_partial t0 k0 gmtoff tm g : t0 <= tm / 1000000 -> 0 <= tm < 2 ^ 31 * 1000000 -> nth_error gmtoff k0 = Some g ->
  exists k, inforce [t0] [k0] (tm / 1000000) k /\ nth_error gmtoff k = Some g /\ tzlookup [t0] [k0] gmtoff tm = Some (Some (g * 1000000)).
Proof.
  intros T R G. exists k0. split.
  - exists 0%nat, t0. split; [reflexivity|]. split; [auto|]. split; [reflexivity|]. intros [|n'] t' L E; [lia|]. destruct n'; discriminate.
  - split; auto. unfold tzlookup. rewrite Z.quot_div_nonneg by lia. replace (cast int32 (tm / 1000000)) with (tm / 1000000).
    + rewrite scan_first by auto. cbn. rewrite G. reflexivity.
    + unfold cast. cbn [sgn int32 w]. symmetry. apply swrap_small; cbn; lia.
Qed.
Print Assumptions C73_single_partial.
Example C73_single_example : tzlookup [0] [1%nat] [0; 3600] 5000000 = Some (Some 3600000000).
Proof. reflexivity. Qed.

(* C73 is false after the second transition: the search, meant for descending times, stops at the first one *)
Theorem C73_later_refuted times types gmtoff tm t0 : ascending times -> nth_error times 0 = Some t0 ->
  0 <= tm < 2 ^ 31 * 1000000 -> t0 <= tm / 1000000 ->
  tzlookup times types gmtoff tm = Some (match nth_error types 0 with None => None | Some k => match nth_error gmtoff k with None => None | Some g => Some (g * 1000000) end end).
Proof.
  intros A N R T. unfold tzlookup. rewrite Z.quot_div_nonneg by lia. replace (cast int32 (tm / 1000000)) with (tm / 1000000).
  - destruct times as [|t ts]; [discriminate|]. injection N as ->. rewrite scan_first by auto. reflexivity.
  - unfold cast. cbn [sgn int32 w]. symmetry. apply swrap_small; cbn; lia.
Qed.
Print Assumptions C73_later_refuted.
(* summer time is never found *)
Example C73_later_example : ascending [1000; 2000] /\ inforce [1000; 2000] [0%nat; 1%nat] 2500 1%nat /\
  tzlookup [1000; 2000] [0%nat; 1%nat] [3600; 7200] 2500000000 = Some (Some 3600000000).
Proof.
  split; [repeat constructor; cbn; intuition (subst; lia)|]. split; [|reflexivity]. exists 1%nat, 2000. split; [reflexivity|]. split; [lia|]. split; [reflexivity|].
  intros [|[|n']] t' L E; try lia. destruct n'; discriminate.
Qed.

(* C73 is false before the first transition: the lookup reads beyond the end of the table *)
Theorem C73_before_refuted times types gmtoff tm : times <> [] -> length types = length times -> 0 <= tm < 2 ^ 31 * 1000000 ->
  (forall t, In t times -> tm / 1000000 < t) -> tzlookup times types gmtoff tm = Some None.
Proof.
  intros N L R B. unfold tzlookup. rewrite Z.quot_div_nonneg by lia. replace (cast int32 (tm / 1000000)) with (tm / 1000000).
  - rewrite scan_before by auto. cbn [Nat.add]. rewrite <- L. destruct times; [congruence|]. rewrite (proj2 (nth_error_None types (length types))) by lia. reflexivity.
  - unfold cast. cbn [sgn int32 w]. symmetry. apply swrap_small; cbn; lia.
Qed.
Print Assumptions C73_before_refuted.
Example C73_before_example : tzlookup [1000; 2000] [0%nat; 1%nat] [3600; 7200] 0 = Some None.
Proof. reflexivity. Qed.
