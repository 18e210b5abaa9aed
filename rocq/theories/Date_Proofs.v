(* Proofs about the calendar of Date_Model.v. *)
From Verif Require Import Base Date_Model Date_Spec.
Open Scope Z_scope.

(* ---- all numbers of a range of length 2^k ---- *)
Fixpoint allr (k : nat) (s : Z) (f : Z -> bool) : bool :=
  match k with O => f s | S k => allr k s f && allr k (s + 2 ^ Z.of_nat k) f end.
Lemma allr_ok k : forall s f, allr k s f = true -> forall x, s <= x < s + 2 ^ Z.of_nat k -> f x = true.
Proof.
  induction k as [|k IH]; cbn [allr]; intros s f A x X.
  - replace x with s by (cbn in X; lia). auto.
  - apply andb_prop in A as [A B]. rewrite Nat2Z.inj_succ, Z.pow_succ_r in X by lia.
    destruct (Z_lt_le_dec x (s + 2 ^ Z.of_nat k)); [apply (IH _ _ A)|apply (IH _ _ B)]; lia.
Qed.

Ltac Zify.zify_post_hook ::= Z.to_euclidean_division_equations.
(* ---- day numbers in closed form ---- *)
Definition ysum (n : Z) : Z := 365 * n + n / 4 - n / 100 + n / 400.
Definition msum (y mo : Z) : Z :=
  nth (Z.to_nat (mo - 1)) [0; 31; 59; 90; 120; 151; 181; 212; 243; 273; 304; 334] 0 + (if (2 <? mo) && leap y then 1 else 0).
Definition dn (y mo d : Z) : Z := ysum (y - 1) + msum y mo + (d - 1).

Lemma leap_next n : yearlen (n + 1) = ysum (n + 1) - ysum n.
Proof.
  unfold yearlen, leap, ysum.
  destruct ((n + 1) mod 4 =? 0) eqn:A, ((n + 1) mod 100 =? 0) eqn:B, ((n + 1) mod 400 =? 0) eqn:C; cbn [andb orb negb];
    rewrite ?Z.eqb_eq, ?Z.eqb_neq in *; lia.
Qed.
Lemma years_ysum n : years n = ysum (Z.of_nat n).
Proof.
  induction n as [|n IH]; [reflexivity|]. cbn [years]. rewrite IH.
  replace (Z.of_nat (S n)) with (Z.of_nat n + 1) by lia. rewrite leap_next. lia.
Qed.
Lemma months_msum y mo : 1 <= mo <= 12 -> months y (Z.to_nat (mo - 1)) = msum y mo.
Proof.
  intros M. assert (mo = 1 \/ mo = 2 \/ mo = 3 \/ mo = 4 \/ mo = 5 \/ mo = 6 \/ mo = 7 \/ mo = 8 \/ mo = 9 \/ mo = 10 \/ mo = 11 \/ mo = 12) as E by lia.
  unfold msum. repeat (destruct E as [->|E]; [cbv -[leap]; destruct (leap y); reflexivity|]).
  subst. cbv -[leap]; destruct (leap y); reflexivity.
Qed.
Lemma daynumber_dn y mo d : 1 <= y -> 1 <= mo <= 12 -> daynumber y mo d = dn y mo d.
Proof.
  intros Y M. unfold daynumber, dn. rewrite years_ysum, months_msum by lia. rewrite Z2Nat.id by lia. reflexivity.
Qed.
Lemma leap400 y k : leap (y + 400 * k) = leap y.
Proof.
  unfold leap. replace ((y + 400 * k) mod 4) with (y mod 4) by lia. replace ((y + 400 * k) mod 100) with (y mod 100) by lia.
  replace ((y + 400 * k) mod 400) with (y mod 400) by lia. reflexivity.
Qed.
Lemma monthlen400 y mo k : monthlen (y + 400 * k) mo = monthlen y mo.
Proof. unfold monthlen. rewrite leap400. reflexivity. Qed.
Lemma dn400 y mo d k : dn (y + 400 * k) mo d = dn y mo d + 146097 * k.
Proof. unfold dn, msum, ysum. rewrite leap400. lia. Qed.
Lemma epoch_dn : daynumber 1970 1 1 = 719162.
Proof. rewrite daynumber_dn by lia. reflexivity. Qed.

(* ---- the calendar of the code on whole days ---- *)
Definition civd (j : Z) : Z * Z * Z :=
  let y := (4 * j - 1) / 146097 in
  let j := 4 * j - 1 - 146097 * y in
  let d := j / 4 in
  let j := (4 * d + 3) / 1461 in
  let d := 4 * d + 3 - 1461 * j in
  let d := (d + 4) / 4 in
  let m := (5 * d - 3) / 153 in
  let d := 5 * d - 3 - 153 * m in
  let d := (d + 5) / 5 in
  let y := 100 * y + j in
  if m <? 10 then (y, m + 3, d) else (y + 1, m - 9, d).
(* a day of the year n counted from March: month m (0 for March, 11 for February), day d *)
Lemma dn_march n m d : 0 <= m <= 11 ->
  (if m <? 10 then dn n (m + 3) d else dn (n + 1) (m - 9) d) = ysum n + (153 * m + 2) / 5 + d - 307.
Proof.
  intros M. pose proof (leap_next (n - 1)) as L. replace (n - 1 + 1) with n in L by lia. unfold yearlen in L.
  assert (m = 0 \/ m = 1 \/ m = 2 \/ m = 3 \/ m = 4 \/ m = 5 \/ m = 6 \/ m = 7 \/ m = 8 \/ m = 9 \/ m = 10 \/ m = 11) as E by lia.
  unfold dn, msum. replace (n + 1 - 1) with n by lia.
  destruct (leap n); cbv iota in L; repeat (destruct E as [->|E]; [cbn -[ysum Z.div Z.mul leap]; unfold Pos.to_nat; cbn -[ysum Z.div Z.mul leap]; lia|]); subst m; cbn -[ysum Z.div Z.mul leap]; unfold Pos.to_nat; cbn -[ysum Z.div Z.mul leap]; lia.
Qed.
Lemma ysum_century c ya : 0 <= ya <= 99 -> ysum (100 * c + ya) = 146097 * c / 4 + 1461 * ya / 4.
Proof.
  intros Y. unfold ysum. replace ((100 * c + ya) / 4) with (25 * c + ya / 4) by lia. replace ((100 * c + ya) / 100) with c by lia.
  replace ((100 * c + ya) / 400) with (c / 4) by lia. lia.
Qed.
Lemma civd_ok j : 307 <= j -> let '(y, mo, d) := civd j in 1 <= y /\ isdate y mo d /\ dn y mo d = j - 307.
Proof.
  intros J. unfold civd.
  set (c := (4 * j - 1) / 146097). set (r := 4 * j - 1 - 146097 * c). set (d1 := r / 4).
  set (ya := (4 * d1 + 3) / 1461). set (r2 := 4 * d1 + 3 - 1461 * ya). set (d2 := (r2 + 4) / 4).
  set (m := (5 * d2 - 3) / 153). set (r3 := 5 * d2 - 3 - 153 * m). set (d := (r3 + 5) / 5). cbv zeta.
  assert (R : 0 <= r < 146097) by (unfold r, c; lia). assert (C : 4 * j - 1 = 146097 * c + r) by (unfold r; lia).
  assert (D1 : 0 <= d1 <= 36524 /\ j = 146097 * c / 4 + d1 + 1) by (unfold d1; clear - R C; lia).
  assert (C0 : 0 <= c) by (unfold c; lia).
  assert (D1c : d1 = 36524 -> c mod 4 = 3) by (unfold d1; clear - R C; lia).
  assert (R2 : 0 <= r2 < 1461) by (unfold r2, ya; lia). assert (Y : 4 * d1 + 3 = 1461 * ya + r2) by (unfold r2; lia).
  assert (D2 : 1 <= d2 <= 366 /\ d1 + 1 = 1461 * ya / 4 + d2) by (unfold d2; clear - R2 Y; lia).
  assert (YA : 0 <= ya <= 99) by (clear - R2 Y D1; lia).
  assert (D2l : d2 = 366 -> ya mod 4 = 3) by (unfold d2; clear - R2 Y; lia).
  assert (D2c : d2 = 366 -> ya = 99 -> c mod 4 = 3) by (intros E1 E2; apply D1c; clear - D2 E1 E2; lia).
  assert (R3 : 0 <= r3 < 153) by (unfold r3, m; lia). assert (M : 5 * d2 - 3 = 153 * m + r3) by (unfold r3; lia).
  assert (MR : 153 * m <= 5 * d2 - 3 < 153 * m + 153) by lia.
  assert (MB : 0 <= m <= 11) by (clear - R3 M D2; lia).
  assert (D : 1 <= d <= 31 /\ d2 = (153 * m + 2) / 5 + d) by (unfold d; clear - R3 M; lia).
  clearbody d. clearbody r3. clearbody m. clearbody d2. clearbody r2. clearbody ya. clearbody d1. clearbody r. clearbody c. clear R R2 R3 C Y M D1c.
  pose proof (dn_march (100 * c + ya) m d MB) as DN. pose proof (ysum_century c ya YA) as YS.
  destruct D as [Dd D], D1 as [_ D1], D2 as [D2 D2'].
  destruct (Z.ltb_spec m 10) as [L|L].
  - assert (Z : dn (100 * c + ya) (m + 3) d = j - 307) by lia. split; [|split; [|exact Z]].
    + clear - D1 D2' D2 J C0 YA D Dd L MB. destruct (Z.eq_dec c 0) as [->|]; [|lia]. destruct (Z.eq_dec ya 0) as [->|]; [|lia]. exfalso. lia.
    + unfold isdate. split; [lia|]. split; [lia|]. unfold monthlen. replace (m + 3 =? 2) with false by (symmetry; apply Z.eqb_neq; lia).
      destruct ((m + 3 =? 4) || (m + 3 =? 6) || (m + 3 =? 9) || (m + 3 =? 11)) eqn:B; [|lia].
      rewrite !orb_true_iff, !Z.eqb_eq in B. clear - B D MR. lia.
  - assert (Z : dn (100 * c + ya + 1) (m - 9) d = j - 307) by lia. split; [lia|]. split; [|exact Z].
    unfold isdate. split; [lia|]. split; [lia|]. unfold monthlen. destruct (Z.eqb_spec (m - 9) 2) as [F|F].
    + assert (m = 11) by lia. subst m. destruct (Z.eq_dec d2 366) as [E|E]; [|destruct (leap (100 * c + ya + 1)); lia].
      replace (leap (100 * c + ya + 1)) with true; [lia|]. symmetry. unfold leap. specialize (D2l E). specialize (D2c E).
      replace ((100 * c + ya + 1) mod 4 =? 0) with true by (symmetry; apply Z.eqb_eq; clear - D2l; lia). cbn [andb].
      destruct (Z.eqb_spec ((100 * c + ya + 1) mod 100) 0) as [G|G]; [|reflexivity]. cbn [negb orb]. apply Z.eqb_eq.
      assert (ya = 99) by (clear - G YA; lia). specialize (D2c H). subst ya. clear - D2c. lia.
    + replace ((m - 9 =? 4) || (m - 9 =? 6) || (m - 9 =? 9) || (m - 9 =? 11)) with false; [lia|].
      symmetry. rewrite !orb_false_iff, !Z.eqb_neq. lia.
Qed.
Lemma year1_val : year1 = - 719162 * DayUsec.
Proof. unfold year1, epochtime. rewrite epoch_dn, daynumber_dn by lia. reflexivity. Qed.
Lemma civil_civd tm : year1 <= tm -> civil tm = Some (civd (tm / DayUsec + 719469)).
Proof.
  intros T. assert (T' : - 719162 * DayUsec <= tm).
  { rewrite <- year1_val. exact T. }
  clear T. set (e := tm / DayUsec). assert (E : -719162 <= e) by (unfold e, DayUsec in *; lia).
  unfold civil. replace (Z.quot (tm + 2440588 * DayUsec) DayUsec) with (e + 2440588) by (unfold e, DayUsec in *; lia).
  replace (e + 2440588 - 1721119) with (e + 719469) by lia. set (j := e + 719469). assert (J : 307 <= j) by (unfold j; lia). clearbody j. clear e E T' tm.
  pose proof (civd_ok j J) as C. unfold civd in *. unfold Days400y, Days4y. change (365 * 400 + 4 * 25 - 3) with 146097. change (365 * 4 + 1) with 1461.
  rewrite (Z.quot_div_nonneg (4 * j - 1)) by lia. set (y := (4 * j - 1) / 146097) in *. set (j1 := 4 * j - 1 - 146097 * y) in *.
  assert (0 <= j1 < 146097) by (unfold j1, y; lia). rewrite (Z.quot_div_nonneg j1) by lia. set (d := j1 / 4) in *.
  assert (0 <= d) by (unfold d; lia). rewrite (Z.quot_div_nonneg (4 * d + 3)) by lia. set (j2 := (4 * d + 3) / 1461) in *.
  set (d1 := 4 * d + 3 - 1461 * j2) in *. assert (0 <= d1 < 1461) by (unfold d1, j2; lia).
  rewrite (Z.quot_div_nonneg (d1 + 4)) by lia. set (d2 := (d1 + 4) / 4) in *. assert (1 <= d2) by (unfold d2; lia).
  rewrite (Z.quot_div_nonneg (5 * d2 - 3)) by lia. set (m := (5 * d2 - 3) / 153) in *. assert (0 <= m) by (unfold m; lia).
  set (d3 := 5 * d2 - 3 - 153 * m) in *. assert (0 <= d3 < 153) by (unfold d3, m; lia).
  rewrite (Z.quot_div_nonneg (d3 + 5)) by lia. set (d4 := (d3 + 5) / 5) in *. assert (1 <= d4) by (unfold d4; lia).
  clearbody d4 d3 m d2 d1 j2 d j1 y.
  destruct (m <? 10) eqn:M; rewrite ?Z.ltb_lt, ?Z.ltb_ge in M; cbv zeta in C; destruct C as (Y & D & _); unfold isdate in D.
  - destruct (100 * y + j2 <=? 0) eqn:A; [rewrite Z.leb_le in A; lia|]. destruct (m + 3 <? 0) eqn:B; [rewrite Z.ltb_lt in B; lia|].
    destruct (d4 <? 0) eqn:F; [rewrite Z.ltb_lt in F; lia|]. reflexivity.
  - destruct (100 * y + j2 + 1 <=? 0) eqn:A; [rewrite Z.leb_le in A; lia|]. destruct (m - 9 <? 0) eqn:B; [rewrite Z.ltb_lt in B; lia|].
    destruct (d4 <? 0) eqn:F; [rewrite Z.ltb_lt in F; lia|]. reflexivity.
Qed.

(* ---- recalc ---- *)
Definition rec (y mo d : Z) : Z :=
  let '(m', y) := if 2 <? mo then (mo - 3, y) else (mo + 9, y - 1) in
  let c := Z.quot y 100 in
  let ya := y - 100 * c in
  Z.quot (c * Days400y) 4 + Z.quot (Days4y * ya) 4 + Z.quot (153 * m' + 2) 5 + d - 719469.
Lemma recalc_rec i : recalc i = rec (year i) (mon i) (day i) * DayUsec + h i * 3600 * 1000000 + m i * 60 * 1000000 + s i * 1000000 + us i.
Proof. unfold recalc, rec. destruct (2 <? mon i); reflexivity. Qed.
Lemma rec_day y mo d k : rec y mo (d + k) = rec y mo d + k.
Proof. unfold rec. destruct (2 <? mo); lia. Qed.
Lemma rec400 y mo d k : 1 <= y -> 0 <= k -> rec (y + 400 * k) mo d = rec y mo d + 146097 * k.
Proof.
  intros Y K. unfold rec, Days400y, Days4y. destruct (2 <? mo).
  - replace (Z.quot (y + 400 * k) 100) with (Z.quot y 100 + 4 * k) by lia. lia.
  - replace (Z.quot (y + 400 * k - 1) 100) with (Z.quot (y - 1) 100 + 4 * k) by lia. lia.
Qed.
Definition chkr (y : Z) : bool :=
  forallb (fun mo => rec y mo 1 =? dn y mo 1 - 719162) [1; 2; 3; 4; 5; 6; 7; 8; 9; 10; 11; 12].
Lemma chkr_all : allr 9 1 chkr = true. Proof. vm_compute. reflexivity. Qed.
Lemma rec_ok y mo d : 1 <= y -> 1 <= mo <= 12 -> rec y mo d = dn y mo d - 719162.
Proof.
  intros Y M. replace d with (1 + (d - 1)) by lia. rewrite rec_day. replace (dn y mo (1 + (d - 1))) with (dn y mo 1 + (d - 1)) by (unfold dn; lia).
  enough (rec y mo 1 = dn y mo 1 - 719162) by lia.
  set (k := (y - 1) / 400). set (r := 1 + (y - 1) mod 400). assert (E : y = r + 400 * k) by (unfold r, k; lia).
  assert (R : 1 <= r < 1 + 2 ^ Z.of_nat 9) by (unfold r; change (2 ^ Z.of_nat 9) with 512; lia). assert (K : 0 <= k) by (unfold k; lia). clearbody k r.
  pose proof (allr_ok 9 1 chkr chkr_all r R) as C. rewrite E, rec400, dn400 by lia. unfold chkr in C. rewrite forallb_forall in C.
  assert (I : In mo [1; 2; 3; 4; 5; 6; 7; 8; 9; 10; 11; 12]) by (cbn; lia). specialize (C mo I). rewrite Z.eqb_eq in C. lia.
Qed.
(* months counted on into the neighbouring years *)
Definition carry (y mo : Z) : Z * Z := if mo <? 1 then (y - 1, mo + 12) else if 12 <? mo then (y + 1, mo - 12) else (y, mo).
Lemma rec_carry y mo d : -9 <= mo <= 14 -> rec y mo d = let '(y', mo') := carry y mo in rec y' mo' d.
Proof.
  intros M. unfold carry. destruct (mo <? 1) eqn:A; rewrite ?Z.ltb_lt, ?Z.ltb_ge in A.
  - unfold rec. replace (2 <? mo) with false by (symmetry; rewrite Z.ltb_ge; lia). replace (2 <? mo + 12) with true by (symmetry; rewrite Z.ltb_lt; lia).
    replace (mo + 12 - 3) with (mo + 9) by lia. reflexivity.
  - destruct (12 <? mo) eqn:B; rewrite ?Z.ltb_lt, ?Z.ltb_ge in B; [|reflexivity].
    unfold rec. replace (2 <? mo) with true by (symmetry; rewrite Z.ltb_lt; lia). replace (2 <? mo - 12) with false by (symmetry; rewrite Z.ltb_ge; lia).
    replace (mo - 12 + 9) with (mo - 3) by lia. replace (y + 1 - 1) with y by lia. reflexivity.
Qed.

(* ---- dates in order ---- *)
Lemma msum_next y mo : 1 <= mo <= 11 -> msum y (mo + 1) = msum y mo + monthlen y mo.
Proof.
  intros M. rewrite <- !months_msum by lia. replace (Z.to_nat (mo + 1 - 1)) with (S (Z.to_nat (mo - 1))) by lia. cbn [months].
  replace (Z.of_nat (S (Z.to_nat (mo - 1)))) with mo by lia. reflexivity.
Qed.
Lemma msum_end y : msum y 12 + monthlen y 12 = yearlen y.
Proof. unfold msum, monthlen, yearlen. cbn -[leap]. destruct (leap y); reflexivity. Qed.
Lemma monthlen_pos y mo : 28 <= monthlen y mo <= 31.
Proof. unfold monthlen. destruct (leap y), (mo =? 2), ((mo =? 4) || (mo =? 6) || (mo =? 9) || (mo =? 11)); lia. Qed.
Lemma msum_mono y n mo : 1 <= mo -> mo + Z.of_nat n <= 12 -> msum y mo + 28 * Z.of_nat n <= msum y (mo + Z.of_nat n).
Proof.
  induction n as [|n IH]; intros A B; [replace (mo + Z.of_nat 0) with mo by lia; lia|]. replace (mo + Z.of_nat (S n)) with (mo + Z.of_nat n + 1) by lia.
  rewrite msum_next by lia. pose proof (monthlen_pos y (mo + Z.of_nat n)). lia.
Qed.
Lemma msum_step y mo mo' : 1 <= mo < mo' -> mo' <= 12 -> msum y mo + monthlen y mo <= msum y mo'.
Proof.
  intros A B. rewrite <- msum_next by lia. replace mo' with (mo + 1 + Z.of_nat (Z.to_nat (mo' - mo - 1))) by lia.
  pose proof (msum_mono y (Z.to_nat (mo' - mo - 1)) (mo + 1)). lia.
Qed.
Lemma ysum_mono a b : a <= b -> ysum a + 365 * (b - a) <= ysum b.
Proof. unfold ysum. intros. lia. Qed.
Lemma dn_year y mo d : isdate y mo d -> ysum (y - 1) <= dn y mo d < ysum y.
Proof.
  intros ((M1 & M2) & D). unfold dn. replace (ysum y) with (ysum (y - 1) + yearlen y) by (pose proof (leap_next (y - 1)); replace (y - 1 + 1) with y in * by lia; lia).
  rewrite <- msum_end. assert (0 <= msum y mo). { pose proof (msum_mono y (Z.to_nat (mo - 1)) 1). replace (1 + Z.of_nat (Z.to_nat (mo - 1))) with mo in * by lia. assert (msum y 1 = 0) by reflexivity. lia. }
  destruct (Z.eq_dec mo 12) as [->|]; [|pose proof (msum_step y mo 12); pose proof (monthlen_pos y 12)]; lia.
Qed.
Lemma dn_inj y mo d y' mo' d' : isdate y mo d -> isdate y' mo' d' -> dn y mo d = dn y' mo' d' -> y = y' /\ mo = mo' /\ d = d'.
Proof.
  intros A B E. assert (y = y').
  { pose proof (dn_year _ _ _ A). pose proof (dn_year _ _ _ B). destruct (Z_lt_le_dec y y'); [pose proof (ysum_mono y (y' - 1)); lia|].
    destruct (Z_lt_le_dec y' y); [pose proof (ysum_mono y' (y - 1)); lia|lia]. }
  subst y'. destruct A as ((? & ?) & ?), B as ((? & ?) & ?). unfold dn in E. split; [reflexivity|]. assert (mo = mo').
  { destruct (Z_lt_le_dec mo mo'); [pose proof (msum_step y mo mo'); lia|]. destruct (Z_lt_le_dec mo' mo); [pose proof (msum_step y mo' mo); lia|lia]. }
  subst. lia.
Qed.
