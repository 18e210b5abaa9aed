(* C38: big integer arithmetic computes the mathematical results. *)
From Verif Require Import Base ListX Word Endian_Model Endian_Proofs Sort_Model Bigint_Model Bigint_Spec Bigint_Proofs Bigint_Proofs2 Bigint_Proofs3 Bigint_Proofs4.
Open Scope Z_scope.

(* ---------- addition, subtraction, comparison, shifts ---------- *)
Theorem C38_add a b : normal a -> normal b -> exists r, bigadd a b = Ok r /\ normal r /\ number r = number a + number b.
Proof. apply bigadd_spec. Qed.
Theorem C38_sub a b : normal a -> normal b -> exists r, bigsub a b = Ok r /\ normal r /\ number r = number a - number b.
Proof. apply bigsub_spec. Qed.
(* one representation per integer, so comparing representations compares integers *)
Theorem C38_canonical a b : normal a -> normal b -> number a = number b -> a = b.
Proof. apply number_inj. Qed.
Theorem C38_cmp a b : normal a -> normal b ->
  match bigcmp a b with Before => number a < number b | Equal => number a = number b | After => number b < number a end.
Proof. intros Na Nb. pose proof (cmp_spec a b Na Nb) as H. destruct (bigcmp a b); auto. now subst. Qed.
Theorem C38_cmpabs a b : normal a -> normal b ->
  match bigcmpabs a b with Before => Z.abs (number a) < Z.abs (number b) | Equal => Z.abs (number a) = Z.abs (number b) | After => Z.abs (number b) < Z.abs (number a) end.
Proof.
  intros Na Nb. pose proof (cmpabs_spec a b Na Nb) as H. rewrite <- (normal_abs a Na), <- (normal_abs b Nb). destruct (bigcmpabs a b); auto. now rewrite H.
Qed.
Lemma even_land d : (Z.land d 1 =? 0) = Z.even d.
Proof. change 1 with (Z.ones 1). rewrite Z.land_ones by lia. change (2 ^ 1) with 2. rewrite Zmod_even. destruct (Z.even d); reflexivity. Qed.
Theorem C38_predicates a b : normal a -> normal b ->
  (biglt a b = true <-> number a < number b) /\ (bigle a b = true <-> number a <= number b) /\
  (biggt a b = true <-> number a > number b) /\ (bigge a b = true <-> number a >= number b) /\
  (bigeq a b = true <-> number a = number b) /\ (bigiszero a = true <-> number a = 0) /\ (bigiseven a = true <-> Z.even (number a) = true).
Proof.
  intros Na Nb. pose proof (C38_cmp a b Na Nb) as H. unfold biglt, bigle, biggt, bigge.
  repeat split; try (destruct (bigcmp a b); intros; try discriminate; try reflexivity; lia).
  - intros E. apply bigeq_spec in E. now subst.
  - intros E. apply bigeq_spec. now apply number_inj.
  - unfold bigiszero, number. destruct (dig a); cbn; intros; [lia|discriminate].
  - intros E. unfold bigiszero. destruct (dig a) eqn:D; auto. exfalso. assert (Ne : dig a <> []) by congruence.
    pose proof (normal_val_pos a Na Ne) as P. destruct (nonzero_sign a Na Ne) as [S|S]; unfold number in E; rewrite S in E; lia.
  - unfold bigiseven, number. destruct (dig a) as [|d l] eqn:D; [cbn [val]; now rewrite Z.mul_0_r|].
    intros E. rewrite even_land in E. rewrite Z.even_mul. apply orb_true_iff. right.
    cbn [val]. rewrite Z.even_add, Z.even_mul, E. reflexivity.
  - unfold bigiseven, number. destruct (dig a) as [|d l] eqn:D; auto. intros E. rewrite Z.even_mul in E. assert (Ne : dig a <> []) by congruence.
    assert (Z.even (val (d :: l)) = true) as E2 by (destruct (nonzero_sign a Na Ne) as [S|S]; rewrite S in E; exact E).
    cbn [val] in E2. rewrite Z.even_add, Z.even_mul in E2. change (Z.even (2 ^ 32)) with true in E2. cbn [orb] in E2. destruct (Z.even d) eqn:Ed; [|discriminate].
    now rewrite even_land.
Qed.
Theorem C38_shl a s : normal a -> 0 <= s -> normal (bigshli a s) /\ number (bigshli a s) = number a * 2 ^ s.
Proof. apply bigshli_spec. Qed.
(* right shift shifts the absolute value: it divides by 2^s truncating toward zero *)
Theorem C38_shr a s : normal a -> 0 <= s -> normal (bigshri a s) /\ number (bigshri a s) = Z.quot (number a) (2 ^ s).
Proof.
  intros Na Hs. destruct (bigshri_spec a s) as [N E]; [apply Na| |auto|].
  { destruct Na as [_ [[E1 ?]|[? [? [?|?]]]]]; auto. rewrite E1. auto. }
  split; auto. rewrite E. pose proof (val_range _ (proj1 Na)) as R. assert (P : 0 < 2 ^ s) by (apply Z.pow_pos_nonneg; lia). unfold number.
  destruct Na as [_ [[E1 E2]|[? [? [S|S]]]]]; [rewrite E2; reflexivity| |]; rewrite S.
  - rewrite !Z.mul_1_l, Z.quot_div_nonneg by lia. reflexivity.
  - replace (-1 * val (dig a)) with (- val (dig a)) by ring. rewrite Z.quot_opp_l, Z.quot_div_nonneg by lia. ring.
Qed.

(* ---------- multiplication ---------- *)
Lemma small_length a k : normal a -> Z.abs (number a) < 2 ^ (32 * Z.of_nat k) -> (length (dig a) <= k)%nat.
Proof.
  intros Na H. rewrite <- (normal_abs a Na), <- pow32 in H. destruct (Nat.le_gt_cases (length (dig a)) k) as [?|G]; auto. exfalso.
  destruct Na as [F [[E ?]|[Ne [L _]]]]; [rewrite E in G; cbn in G; lia|]. pose proof (normal_low _ F Ne L).
  assert ((2 ^ 32) ^ Z.of_nat k <= (2 ^ 32) ^ Z.of_nat (length (dig a) - 1)) by (apply Z.pow_le_mono_r; lia). lia.
Qed.
(* Proved when one factor is below 2^2016 (63 digits), so that the schoolbook method is used. *)
Theorem C38_mul_partial a b : normal a -> normal b -> Z.abs (number a) < 2 ^ 2016 \/ Z.abs (number b) < 2 ^ 2016 ->
  exists r, bigmul a b = Ok r /\ normal r /\ number r = number a * number b.
Proof.
  intros Na Nb H. apply bigmul_spec; auto. unfold Kmin.
  destruct H as [H|H]; [left; pose proof (small_length a 63 Na)|right; pose proof (small_length b 63 Nb)]; change (32 * Z.of_nat 63) with 2016 in *; lia.
Qed.
(* Karatsuba multiplication of larger factors gives a wrong product: 2^4064 * 2^2048. *)
Definition pow2big (limbs : nat) : big := mkbig (repeat 0 limbs ++ [1]) 1.
Theorem C38_mul_refuted : exists a b r, normal a /\ normal b /\ bigmul a b = Ok r /\ number r <> number a * number b.
Proof.
  exists (pow2big 127), (pow2big 64). destruct (bigmul (pow2big 127) (pow2big 64)) as [r| | |] eqn:E; [|vm_compute in E; discriminate..].
  exists r. assert (N : forall k, normal (pow2big k)).
  { intros k. split; cbn [pow2big dig sign]; [apply Forall_app; split; [apply limb_zeros|repeat constructor; unfold limb; lia]|]. right.
    split; [intros X; apply app_eq_nil in X as [_ X]; discriminate|]. split; [rewrite last_last; lia|auto]. }
  split; auto. split; auto. split; auto. vm_compute in E. injection E as <-. vm_compute. discriminate.
Qed.

(* ---------- division ---------- *)
Lemma quot_of_abs a b q r : normal a -> normal b -> normal q -> normal r -> number b <> 0 ->
  val (dig a) = val (dig q) * val (dig b) + val (dig r) -> val (dig r) < val (dig b) -> (dig q <> [] -> sign q = sign a * sign b) ->
  number q = Z.quot (number a) (number b) /\ Z.abs (number r) = Z.abs (Z.rem (number a) (number b)) /\
  ((dig r <> [] -> sign r = sign a) -> number r = Z.rem (number a) (number b)).
Proof.
  intros Na Nb Nq Nr Hb E R Sq. pose proof (val_range _ (proj1 Na)) as Ra. pose proof (val_range _ (proj1 Nq)) as Rq. pose proof (val_range _ (proj1 Nr)) as Rr.
  assert (Db : dig b <> []) by (intros D; apply Hb; unfold number; rewrite D; cbn; lia).
  assert (Q0 : val (dig a) / val (dig b) = val (dig q)) by (symmetry; apply Z.div_unique with (val (dig r)); lia).
  assert (M0 : val (dig a) mod val (dig b) = val (dig r)) by (symmetry; apply Z.mod_unique with (val (dig q)); lia).
  assert (AQ : Z.abs (number q) = Z.abs (number a) / Z.abs (number b)) by (rewrite <- !normal_abs; auto).
  assert (AR : Z.abs (number r) = Z.abs (number a) mod Z.abs (number b)) by (rewrite <- !normal_abs; auto).
  assert (NQ : number q = sign a * sign b * val (dig q)).
  { unfold number. destruct (dig q) eqn:D; [cbn; lia|]. rewrite Sq by congruence. reflexivity. }
  rewrite (normal_sign a Na), (normal_sign b Nb), <- Q0, (normal_abs a Na), (normal_abs b Nb) in NQ.
  split; [|split].
  - rewrite NQ. rewrite Z.quot_div by lia. reflexivity.
  - rewrite AR, Z.rem_mod by lia. rewrite Z.abs_mul. pose proof (Z.mod_pos_bound (Z.abs (number a)) (Z.abs (number b)) ltac:(lia)).
    destruct (Z.eq_dec (number a) 0) as [Ea|Ea]; [rewrite Ea, Zmod_0_l; reflexivity|]. rewrite (Z.abs_eq (_ mod _)) by lia.
    destruct (Z.lt_total (number a) 0) as [L|[L|L]]; [rewrite (Z.sgn_neg (number a)) by lia|lia|rewrite (Z.sgn_pos (number a)) by lia]; cbn [Z.abs]; ring.
  - intros Sr. assert (NR : number r = sign a * val (dig r)) by (unfold number; destruct (dig r) eqn:D; [cbn; lia|rewrite Sr by congruence; reflexivity]).
    rewrite NR, (normal_sign a Na), Z.rem_mod by lia. rewrite <- M0, (normal_abs a Na), (normal_abs b Nb). reflexivity.
Qed.
(* quotient: for every non-zero divisor, truncated division *)
Theorem C38_div a b : normal a -> normal b -> number b <> 0 ->
  exists q r, bigdivmod a b = Ok (q, r) /\ bigdiv a b = Ok q /\ bigmod a b = Ok r /\ normal q /\ normal r /\
    number q = Z.quot (number a) (number b) /\ Z.abs (number r) = Z.abs (Z.rem (number a) (number b)).
Proof.
  intros Na Nb Hb. destruct (divmod_spec a b Na Nb Hb) as (q & r & E & Nq & Nr & V & R & Sq & _). exists q, r. unfold bigdiv, bigmod. rewrite E. cbn [bind].
  destruct (quot_of_abs a b q r Na Nb Nq Nr Hb V R Sq) as (Q & M & _). auto 10.
Qed.
(* Remainder: it has the sign of the dividend when the dividend is not negative or the divisor has two digits.
   Missing: one-digit divisors of negative dividends, where it is false (next theorem). *)
Theorem C38_mod_partial a b : normal a -> normal b -> number b <> 0 -> 0 <= number a \/ 2 ^ 32 <= Z.abs (number b) ->
  exists q r, bigdivmod a b = Ok (q, r) /\ number r = Z.rem (number a) (number b).
Proof.
  intros Na Nb Hb H. destruct (divmod_spec a b Na Nb Hb) as (q & r & E & Nq & Nr & V & R & Sq & Sr). exists q, r. split; auto.
  apply (quot_of_abs a b q r Na Nb Nq Nr Hb V R Sq). intros Dr. rewrite (Sr Dr).
  destruct (Nat.eqb_spec (length (dig b)) 1) as [L|L]; auto. destruct (Nat.eqb_spec (length (dig a)) 0) as [La|La]; auto.
  destruct H as [H|H].
  - assert (Da : dig a <> []) by (intros D; apply La; now rewrite D). pose proof (normal_val_pos a Na Da). destruct (nonzero_sign a Na Da) as [S|S]; auto.
    unfold number in H. rewrite S in H. lia.
  - exfalso. rewrite <- (normal_abs b Nb) in H. pose proof (val_range _ (proj1 Nb)) as X. rewrite L in X. change ((2 ^ 32) ^ Z.of_nat 1) with (2 ^ 32) in X. lia.
Qed.
Lemma normal1 d s : 0 < d < 2 ^ 32 -> s = 1 \/ s = -1 -> normal (mkbig [d] s).
Proof. intros H S. split; cbn; [repeat constructor; unfold limb; lia|]. right. repeat split; auto; [discriminate|lia]. Qed.
(* -7 rem 2 is reported as 1 *)
Theorem C38_mod_refuted : exists a b r, normal a /\ normal b /\ number a = -7 /\ number b = 2 /\ bigmod a b = Ok r /\ number r = 1 /\ Z.rem (-7) 2 = -1.
Proof.
  exists (mkbig [7] (-1)), (mkbig [2] 1), (mkbig [1] 1). split; [apply normal1; auto; lia|]. split; [apply normal1; auto; lia|]. repeat split.
Qed.
Theorem C38_div_by_zero a b : normal b -> number b = 0 -> bigdivmod a b = Die /\ bigdiv a b = Die /\ bigmod a b = Die.
Proof.
  intros Nb Hb. unfold bigdiv, bigmod, bigdivmod. apply (C38_predicates b b Nb Nb) in Hb. rewrite Hb. auto.
Qed.

(* ---------- from machine integers ---------- *)
Lemma two_digits v : 0 <= v < 2 ^ 64 -> cast uint32 v + 2 ^ 32 * cast uint32 (v / 2 ^ 32) = v.
Proof. intros H. rewrite !c32. rewrite (Z.mod_small (v / 2 ^ 32)) by (split; [apply Z.div_pos; lia|apply Z.div_lt_upper_bound; lia]). pose proof (Z.div_mod v (2 ^ 32)). lia. Qed.
(* mkbigint: except for the smallest value of int8, int16 and int32 *)
Theorem C38_mkbigint_partial t v : In t [int8; int16; int32; int64; uint8; uint16; uint32; uint64] ->
  (if sgn t then - 2 ^ (w t - 1) <= v < 2 ^ (w t - 1) else 0 <= v < 2 ^ w t) -> sgn t = false \/ w t = 64 \/ v <> - 2 ^ (w t - 1) ->
  normal (mkbigint t v) /\ number (mkbigint t v) = v.
Proof.
  intros Ht Hv Hm.
  assert (X : let '(s, u) := if v <? 0 then (-1, cast t (- v)) else if 0 <? v then (1, v) else (0, v) in
              s = Z.sgn v /\ cast uint64 u = Z.abs v /\ Z.abs v < 2 ^ 64).
  { destruct (Z.ltb_spec v 0); [|destruct (Z.ltb_spec 0 v)].
    - rewrite Z.sgn_neg, Z.abs_neq by lia. split; auto. destruct (sgn t) eqn:S; [|lia].
      assert (Wt : 0 < w t <= 64) by (cbn in Ht; intuition subst; cbn; lia).
      assert (2 ^ (w t - 1) <= 2 ^ 63) by (apply Z.pow_le_mono_r; lia). split; [|lia].
      destruct (Z.eq_dec v (- 2 ^ (w t - 1))) as [->|Ne].
      + destruct Hm as [?|[E|?]]; [congruence| |congruence]. assert (t = int64) as -> by (cbn in Ht; intuition subst; cbn in *; congruence). reflexivity.
      + unfold cast at 2. rewrite S. rewrite swrap_small by lia. apply c64. lia.
    - rewrite Z.sgn_pos, Z.abs_eq by lia. assert (2 ^ w t <= 2 ^ 64) by (apply Z.pow_le_mono_r; cbn in Ht; intuition subst; cbn; lia).
      assert (2 ^ (w t - 1) <= 2 ^ 64) by (apply Z.pow_le_mono_r; cbn in Ht; intuition subst; cbn; lia). rewrite c64 by (destruct (sgn t); lia). destruct (sgn t); lia.
    - assert (v = 0) by lia. subst. cbn. lia. }
  unfold mkbigint. destruct (if v <? 0 then _ else _) as [s u]. destruct X as (-> & -> & B).
  assert (F : forall x, limb (cast uint32 x)) by apply limb32.
  assert (Y : trim (mkbig (if Base <=? Z.abs v then [cast uint32 (Z.abs v)] ++ [cast uint32 (Z.abs v / Base)] else [cast uint32 (Z.abs v)]) (Z.sgn v)) =
              trim (mkbig [cast uint32 (Z.abs v); cast uint32 (Z.abs v / Base)] (Z.sgn v))).
  { destruct (Z.leb_spec Base (Z.abs v)) as [|L]; auto. rewrite Z.div_small by lia. change (cast uint32 0) with 0. unfold trim. cbn [dig trimdig sign app]. change (0 =? 0) with true. reflexivity. }
  rewrite Y. pose proof (two_digits (Z.abs v) ltac:(lia)) as D. rewrite Base_eq.
  destruct (trim_spec (mkbig [cast uint32 (Z.abs v); cast uint32 (Z.abs v / 2 ^ 32)] (Z.sgn v))) as [N E]; cbn [dig sign val]; auto.
  - destruct (Z.lt_total v 0) as [L|[L|L]]; [rewrite Z.sgn_neg by lia; auto|rewrite L in *; auto|rewrite Z.sgn_pos by lia; auto].
  - split; auto. rewrite E. unfold number. cbn [dig sign val]. lia.
Qed.
(* mkbigint((-128 : int8)) is -(2^64 - 128) *)
Theorem C38_mkbigint_refuted : number (mkbigint int8 (-128)) = - (2 ^ 64 - 128) /\ number (mkbigint int32 (- 2 ^ 31)) = - (2 ^ 64 - 2 ^ 31).
Proof. split; vm_compute; reflexivity. Qed.
(* the conversion used by bigaddi and the other mixed operations has no exception *)
Theorem C38_ofint t v : (- 2 ^ 63 <= v < 2 ^ 63) \/ (0 <= v < 2 ^ 64) -> normal (bigofint t v) /\ number (bigofint t v) = v.
Proof.
  intros Hv. unfold bigofint, bigdigit.
  assert (X : (if v <? 0 then (-1, cast uint64 (- cast uint64 v)) else (1, cast uint64 v)) = (if v <? 0 then -1 else 1, Z.abs v) /\ Z.abs v < 2 ^ 64).
  { destruct (Z.ltb_spec v 0); (split; [|lia]); f_equal.
    - rewrite Z.abs_neq by lia. unfold cast; cbn [sgn w uint64]. unfold uwrap. replace (v mod 2 ^ 64) with (v + 2 ^ 64) by (apply Z.mod_unique with (-1); lia). symmetry. apply Z.mod_unique with (-1); lia.
    - rewrite Z.abs_eq by lia. apply c64. lia. }
  destruct X as [-> B]. destruct (Z.eqb_spec (Z.abs v) 0) as [Z0|Z0].
  - unfold normal, number. cbn. split; [auto|lia].
  - pose proof (two_digits (Z.abs v) ltac:(lia)) as D. destruct (Z.ltb_spec (Z.abs v) Base) as [L|L]; rewrite Base_eq in L; unfold normal, number; cbn [dig sign val].
    + rewrite c32, Z.mod_small by lia. split; [|destruct (Z.ltb_spec v 0); lia]. split; [repeat constructor; unfold limb; lia|]. right. cbn [last].
      split; [congruence|]. split; [lia|]. destruct (v <? 0); auto.
    + rewrite Z.shiftr_div_pow2 by lia. split; [|destruct (Z.ltb_spec v 0); lia]. split; [repeat constructor; apply limb32|]. right. cbn [last].
      split; [congruence|]. split; [|destruct (v <? 0); auto]. rewrite c32. assert (1 <= Z.abs v / 2 ^ 32 < 2 ^ 32) by (split; [apply Z.div_le_lower_bound; lia|apply Z.div_lt_upper_bound; lia]).
      rewrite Z.mod_small by lia. lia.
Qed.
(* bigfrombytes loses bytes: 00 01 00 00 should be 256 *)
Theorem C38_frombytes_refuted : number (bigfrombytes false [0; 1; 0; 0]) = 0.
Proof. vm_compute. reflexivity. Qed.

(* ---------- bitwise operations leave denormalised numbers ---------- *)
Theorem C38_or_normal_refuted : exists a b, normal a /\ normal b /\ number b = 5 /\ ~ normal (bigor a b) /\ number (bigor a b) = 0.
Proof.
  exists (mkbig [] 0), (mkbig [5] 1). split; [split; cbn; auto|]. split; [apply normal1; auto; lia|]. repeat split; auto.
  intros [_ [[H _]|[_ [_ [H|H]]]]]; cbn in H; discriminate.
Qed.
Theorem C38_and_normal_refuted : exists a b, normal a /\ normal b /\ ~ normal (snd (bigand a b)).
Proof.
  exists (mkbig [0; 1] 1), (mkbig [5] 1). split; [|split; [apply normal1; auto; lia|]].
  - split; cbn; [repeat constructor; unfold limb; lia|]. right. repeat split; auto; discriminate.
  - intros [_ [[H _]|[_ [H _]]]]; cbn in H; [discriminate|apply H; reflexivity].
Qed.

(* concrete cases: 2^64 - 1 and -(2^96 + 3) *)
Definition xa := mkbig [4294967295; 4294967295] 1.
Definition xb := mkbig [3; 0; 0; 1] (-1).
Lemma xa_normal : normal xa. Proof. split; cbn; [repeat constructor; unfold limb; lia|right; repeat split; auto; discriminate]. Qed.
Lemma xb_normal : normal xb. Proof. split; cbn; [repeat constructor; unfold limb; lia|right; repeat split; auto; discriminate]. Qed.
Example ex_numbers : number xa = 2 ^ 64 - 1 /\ number xb = - (2 ^ 96 + 3). Proof. split; reflexivity. Qed.
Example ex_add : exists r, bigadd xa xb = Ok r /\ number r = - (2 ^ 96 - 2 ^ 64 + 4). Proof. eexists. split; [vm_compute; reflexivity|vm_compute; reflexivity]. Qed.
Example ex_mul_partial : Z.abs (number xb) < 2 ^ 2016. Proof. reflexivity. Qed.
Example ex_divmod : exists q r, bigdivmod xb xa = Ok (q, r) /\ number q = - 2 ^ 32 /\ number r = - (2 ^ 32 + 3). Proof. do 2 eexists. split; [vm_compute; reflexivity|split; vm_compute; reflexivity]. Qed.
Example ex_div_by_zero : normal bigclear /\ number bigclear = 0. Proof. split; [split; cbn; auto|reflexivity]. Qed.
Example ex_shift : number (bigshri xb 33) = Z.quot (- (2 ^ 96 + 3)) (2 ^ 33). Proof. vm_compute. reflexivity. Qed.
Example ex_mkbigint : number (mkbigint int16 (-300)) = -300. Proof. reflexivity. Qed.

Print Assumptions C38_add.
Print Assumptions C38_sub.
Print Assumptions C38_canonical.
Print Assumptions C38_cmp.
Print Assumptions C38_cmpabs.
Print Assumptions C38_predicates.
Print Assumptions C38_shl.
Print Assumptions C38_shr.
Print Assumptions C38_mul_partial.
Print Assumptions C38_mul_refuted.
Print Assumptions C38_div.
Print Assumptions C38_mod_partial.
Print Assumptions C38_mod_refuted.
Print Assumptions C38_div_by_zero.
Print Assumptions C38_mkbigint_partial.
Print Assumptions C38_mkbigint_refuted.
Print Assumptions C38_ofint.
Print Assumptions C38_frombytes_refuted.
Print Assumptions C38_or_normal_refuted.
Print Assumptions C38_and_normal_refuted.
