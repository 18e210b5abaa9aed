(* Division. *)
From Verif Require Import Base ListX Word Endian_Model Endian_Proofs Sort_Model Bigint_Model Bigint_Spec Bigint_Proofs Bigint_Proofs2 Bigint_Proofs3.
Open Scope Z_scope.

(* ---------- nlz ---------- *)
(* ---------- bigdivmod ---------- *)
Lemma nonzero_sign a : normal a -> dig a <> [] -> sign a = 1 \/ sign a = -1.
Proof. intros [_ [[E1 E2]|[_ [_ S1]]]] G; auto. congruence. Qed.
Lemma normal_length a n : normal a -> (2 ^ 32) ^ Z.of_nat n <= val (dig a) < (2 ^ 32) ^ Z.of_nat (S n) -> length (dig a) = S n.
Proof.
  intros Na H. pose proof (val_range _ (proj1 Na)) as R. pose proof (pB_pos n).
  assert (dig a <> []) as Nz by (intros E; rewrite E in H; cbn [val] in H; lia).
  destruct Na as [F [[? ?]|[_ [L _]]]]; [congruence|]. pose proof (normal_low _ F Nz L) as Lo.
  destruct (Nat.lt_trichotomy (length (dig a)) (S n)) as [G|[G|G]]; auto.
  - assert ((2 ^ 32) ^ Z.of_nat (length (dig a)) <= (2 ^ 32) ^ Z.of_nat n) by (apply Z.pow_le_mono_r; lia). lia.
  - assert ((2 ^ 32) ^ Z.of_nat (S n) <= (2 ^ 32) ^ Z.of_nat (length (dig a) - 1)) by (apply Z.pow_le_mono_r; lia). lia.
Qed.
Lemma le_shift x p : 0 <= x -> 0 < p -> x <= x * p. Proof. nia. Qed.
Lemma mul_lt_le a p b q : 0 <= a < p -> 0 < b <= q -> a * b < p * q. Proof. nia. Qed.
Lemma mul_lt_cancel l p x y : 0 <= l -> 0 < p -> l + p * x < p * y -> x < y. Proof. nia. Qed.
Lemma ext_zero Q m e : 0 < Q -> 0 <= m -> 0 <= e -> m + 2 ^ 32 * Q * e < 2 ^ 31 * Q -> e = 0. Proof. nia. Qed.
Lemma rem_range p r b : 0 < p -> 0 <= r * p -> r * p < b * p -> 0 <= r < b. Proof. nia. Qed.
Lemma divcore vl w z k ud : Forall limb vl -> limb w -> 2 ^ 31 <= z < 2 ^ 32 -> let v := vl ++ [w; z] in
  Forall limb ud -> (k + length v <= length ud)%nat -> val ud < (2 ^ 32) ^ Z.of_nat k * val v ->
  exists rd e qs, divloop k v ud [] = Ok (rd ++ e, qs) /\ Forall limb rd /\ Forall limb e /\ val e = 0 /\ Forall limb qs /\ length qs = k /\
    val rd < val v /\ val ud = val qs * val v + val rd.
Proof.
  intros Fv Hw Hz v Fu L HV. set (n := length v) in *. pose proof (pB_pos k) as HPk. pose proof (pB_pos n) as HPn.
  set (lo := firstn k ud). set (mid := firstn n (skipn k ud)). set (ext := skipn n (skipn k ud)).
  assert (Esp : ud = lo ++ mid ++ ext) by (subst lo mid ext; now rewrite !firstn_skipn).
  assert (Llo : length lo = k) by (subst lo; rewrite firstn_length; clear - L; lia).
  assert (Lmid : length mid = n) by (subst mid; rewrite firstn_length, skipn_length; clear - L; lia).
  assert (Flo : Forall limb lo) by (apply Forall_firstn; auto). assert (Fmid : Forall limb mid) by (apply Forall_firstn, Forall_skipn; auto).
  assert (Fext : Forall limb ext) by (apply Forall_skipn, Forall_skipn; auto).
  pose proof (val_range _ Flo) as Rlo. rewrite Llo in Rlo. pose proof (val_range _ Fmid) as Rmid. rewrite Lmid in Rmid. pose proof (val_range _ Fext) as Rext.
  assert (Vsp : val ud = val lo + (2 ^ 32) ^ Z.of_nat k * (val mid + (2 ^ 32) ^ Z.of_nat n * val ext)) by (rewrite Esp at 1; rewrite !val_app, Llo, Lmid; reflexivity).
  assert (MB : val mid + (2 ^ 32) ^ Z.of_nat n * val ext < val v).
  { apply (mul_lt_cancel (val lo) ((2 ^ 32) ^ Z.of_nat k)); [apply Rlo|apply HPk|rewrite <- Vsp; exact HV]. }
  assert (Vn : val v < (2 ^ 32) ^ Z.of_nat n).
  { apply val_range. apply Forall_app. split; auto. constructor; auto. constructor; auto. unfold limb. lia. }
  assert (Ext0 : val ext = 0).
  { destruct (Z.eq_dec (val ext) 0) as [?|Ne]; auto. exfalso. clearbody lo mid ext v n. clear - MB Vn Ne Rext Rmid HPn. set (Q := (2 ^ 32) ^ Z.of_nat n) in *. clearbody Q.
    assert (1 <= val ext) by lia. assert (Q * 1 <= Q * val ext) by (apply Z.mul_le_mono_nonneg_l; lia). lia. }
  rewrite Ext0, Z.mul_0_r, Z.add_0_r in *.
  destruct (divloop_spec vl w z Fv Hw Hz k lo mid ext []) as (rd & qs & Ed & Lrd & Frd & Lqs & Fqs & HR & EV); auto.
  fold v in Ed, Lrd, HR, EV. rewrite <- Esp, app_nil_r in Ed. exists rd, (repeat 0 k ++ ext), qs.
  repeat (split; auto).
  - apply Forall_app; split; auto. apply limb_zeros.
  - rewrite val_app, val_zeros, Ext0. lia.
  - rewrite Vsp. exact EV.
Qed.
Lemma vshape P b bl b1 bt s : 0 < P -> 0 <= bl < P -> 0 <= b1 < 2 ^ 32 -> 0 <= s < 32 -> 2 ^ 31 <= bt * 2 ^ s < 2 ^ 32 -> b = bl + P * (b1 + 2 ^ 32 * bt) ->
  2 ^ 31 * (2 ^ 32 * P) <= b * 2 ^ s < 2 ^ 32 * (2 ^ 32 * P).
Proof.
  intros HP Rbl Hb1 Hs Hz ->. assert (Ps : 0 < 2 ^ s) by (apply Z.pow_pos_nonneg; lia).
  assert (HX : bt * 2 ^ s + 2 ^ s <= 2 ^ 32).
  { assert (D : 2 ^ 32 = 2 ^ (32 - s) * 2 ^ s) by (rewrite <- Z.pow_add_r by lia; f_equal; lia). destruct Hz as [_ Hz]. clear - D Hz Ps. rewrite D in Hz |- *. set (S1 := 2 ^ s) in *. set (S2 := 2 ^ (32 - s)) in *. clearbody S1 S2. apply Z.mul_lt_mono_pos_r in Hz; auto. replace (bt * S1 + S1) with ((bt + 1) * S1) by ring. apply Z.mul_le_mono_nonneg_r; lia. }
  set (S := 2 ^ s) in *. clearbody S. clear Hs.
  assert (Y : bl + P * (b1 + 2 ^ 32 * bt) < P * (2 ^ 32 * (bt + 1))).
  { replace (P * (2 ^ 32 * (bt + 1))) with (P * (2 ^ 32 * bt) + P * 2 ^ 32) by ring. assert (P * b1 <= P * (2 ^ 32 - 1)) by (apply Z.mul_le_mono_nonneg_l; lia). lia. }
  assert (Y2 : P * (2 ^ 32 * bt) <= bl + P * (b1 + 2 ^ 32 * bt)).
  { assert (0 <= P * b1) by (apply Z.mul_nonneg_nonneg; lia). lia. }
  set (B := bl + P * (b1 + 2 ^ 32 * bt)) in *. clearbody B. split.
  - apply Z.le_trans with (P * (2 ^ 32 * bt) * S); [|apply Z.mul_le_mono_nonneg_r; lia]. replace (P * (2 ^ 32 * bt) * S) with ((bt * S) * (2 ^ 32 * P)) by ring.
    apply Z.mul_le_mono_nonneg_r; lia.
  - apply Z.lt_le_trans with (P * (2 ^ 32 * (bt + 1)) * S); [apply Z.mul_lt_mono_pos_r; lia|].
    replace (P * (2 ^ 32 * (bt + 1)) * S) with ((bt * S + S) * (2 ^ 32 * P)) by ring. apply Z.mul_le_mono_nonneg_r; lia.
Qed.
Lemma ztop P vl w z : 0 <= vl < P -> 0 <= w < 2 ^ 32 -> 2 ^ 31 * (2 ^ 32 * P) <= vl + P * (w + 2 ^ 32 * z) -> 2 ^ 31 <= z.
Proof.
  intros R Hw H. destruct (Z.le_gt_cases (2 ^ 31) z) as [?|G]; auto. exfalso.
  assert (P * (w + 2 ^ 32 * z) <= P * (2 ^ 32 * 2 ^ 31 - 1)) by (apply Z.mul_le_mono_nonneg_l; lia). lia.
Qed.
Lemma divmod_spec a b : normal a -> normal b -> number b <> 0 ->
  exists q r, bigdivmod a b = Ok (q, r) /\ normal q /\ normal r /\ val (dig a) = val (dig q) * val (dig b) + val (dig r) /\ val (dig r) < val (dig b) /\
    (dig q <> [] -> sign q = sign a * sign b) /\ (dig r <> [] -> sign r = if (length (dig b) =? 1)%nat then (if (length (dig a) =? 0)%nat then sign a else 1) else sign a).
Proof.
  intros Na Nb Hb. assert (Db : dig b <> []) by (intros E; apply Hb; unfold number; rewrite E; cbn; lia).
  pose proof (normal_val_pos b Nb Db) as Vb. pose proof (val_range _ (proj1 Na)) as Ra.
  pose proof (nonzero_sign b Nb Db) as Sb.
  unfold bigdivmod, bigiszero. destruct (Nat.eqb_spec (length (dig b)) 0) as [E0|_]; [destruct (dig b); [congruence|discriminate]|].
  destruct (Nat.ltb_spec (length (dig a)) (length (dig b))) as [L|L].
  { exists (mkbig [] 0), a. split; [reflexivity|]. split; [split; cbn; auto|]. split; auto. cbn [dig val]. split; [lia|]. split.
    - pose proof (cmpabs_spec a b Na Nb) as C. unfold bigcmpabs in C. destruct (Nat.ltb_spec (length (dig a)) (length (dig b))); lia.
    - split; [congruence|]. intros Da. destruct (Nat.eqb_spec (length (dig b)) 1) as [E1|E1]; auto.
      destruct (dig a); [congruence|]. cbn [length] in L. lia. }
  assert (Da : dig a <> []) by (intros E; rewrite E in L; destruct (dig b); [congruence|cbn in L; lia]).
  pose proof (nonzero_sign a Na Da) as Sa.
  assert (Sq : (if negb (sign a =? sign b) then -1 else 1) = sign a * sign b) by (destruct Sa as [->| ->], Sb as [->| ->]; reflexivity).
  rewrite Sq. assert (Sq2 : sign a * sign b = 1 \/ sign a * sign b = -1) by (destruct Sa as [->| ->], Sb as [->| ->]; auto).
  destruct (Nat.eqb_spec (length (dig b)) 1) as [L1|L1].
  - destruct (dig b) as [|b0 [|? ?]] eqn:Eb; try discriminate. clear L1.
    pose proof (proj1 Nb) as Fb. rewrite Eb in Fb. inversion Fb as [|? ? Hb0 _]; subst. unfold limb in Hb0.
    assert (B0 : 0 < b0) by (cbn [val] in Vb; lia). destruct (div1_spec b0 ltac:(lia) (dig a) (proj1 Na)) as (Fq & Lq & Hr & V).
    destruct (div1 (dig a) b0) as [q c]. cbn [fst snd] in *.
    assert (Eq : val (q ++ [0]) = val q) by (rewrite val_app; cbn [val]; lia).
    destruct (trim_spec (mkbig (q ++ [0]) (sign a * sign b))) as [N1 E1]; cbn [dig sign]; [apply Forall_app; split; auto; constructor; auto; unfold limb; lia|tauto|].
    assert (Mk : mkbigint uint64 c = trim (mkbig [c] (if 0 <? c then 1 else 0))).
    { unfold mkbigint. destruct (Z.ltb_spec c 0); [lia|]. destruct (Z.ltb_spec 0 c); rewrite (c64 c) by lia; (destruct (Z.leb_spec Base c); [rewrite Base_eq in *; lia|]);
      rewrite c32, Z.mod_small by lia; reflexivity. }
    destruct (trim_spec (mkbig [c] (if 0 <? c then 1 else 0))) as [N2 E2]; cbn [dig sign val]; [constructor; auto; unfold limb; lia|destruct (Z.ltb_spec 0 c); auto; right; right; lia|].
    rewrite Mk, (trim_normal (trim _)) by auto. do 2 eexists. split; [reflexivity|]. split; auto. split; auto.
    assert (V1 : val (dig (trim (mkbig (q ++ [0]) (sign a * sign b)))) = val q) by (unfold trim; cbn [dig]; now rewrite trimdig_val).
    assert (V2 : val (dig (trim (mkbig [c] (if 0 <? c then 1 else 0)))) = c) by (unfold trim; cbn [dig]; rewrite trimdig_val; cbn [val]; lia).
    rewrite V1, V2. cbn [val]. split; [lia|]. split; [lia|]. unfold trim; cbn [dig sign]. split.
    + destruct (trimdig (q ++ [0])); congruence.
    + destruct (Nat.eqb_spec (length (dig a)) 0); [destruct (dig a); [congruence|discriminate]|].
      destruct (Z.eqb_spec c 0); [subst; cbn; congruence|]. destruct (Z.ltb_spec 0 c); [|lia]. cbn [trimdig]. destruct (c =? 0); congruence.
  - destruct (split2 (dig b) (length (dig b) - 2)) as (bl & b1 & bt & Eb & Lbl).
    { destruct (dig b) as [|? [|? ?]]; [congruence|cbn in L1; lia|cbn [length]; lia]. }
    set (n := length (dig b)) in *. set (m := length (dig a)) in *.
    assert (Hn : (2 <= n)%nat) by (subst n; destruct (dig b) as [|? [|? ?]]; [congruence|cbn in L1; lia|cbn [length]; lia]).
    assert (Eat : at_ (dig b) (n - 1) = Ok bt) by (rewrite Eb; replace (n - 1)%nat with (length bl + 1)%nat by lia; apply at_app).
    pose proof (proj1 Nb) as Fb. rewrite Eb in Fb. apply Forall_app in Fb as [Fbl Fb]. inversion Fb as [|? ? Hb1 Fb2]; subst. inversion Fb2 as [|? ? Hbt _]; subst.
    assert (Hbt0 : 0 < bt).
    { destruct Nb as [_ [[? ?]|[_ [Lb _]]]]; [congruence|]. rewrite Eb in Lb. change (bl ++ [b1; bt]) with (bl ++ [b1] ++ [bt]) in Lb. rewrite app_assoc, last_last in Lb. unfold limb in Hbt. lia. }
    destruct (nlz_spec bt) as [Hs Hz]; [unfold limb in Hbt; lia|]. set (s := nlz bt) in *.
    assert (Ps : 0 < 2 ^ s <= 2 ^ 31) by (split; [apply Z.pow_pos_nonneg; lia|apply Z.pow_le_mono_r; lia]).
    destruct (bigshli_spec a s Na ltac:(lia)) as [Nu Vu]. destruct (bigshli_spec b s Nb ltac:(lia)) as [Nv Vv].
    set (u := bigshli a s) in *. set (v := bigshli b s) in *.
    assert (Vu' : val (dig u) = val (dig a) * 2 ^ s) by (rewrite (normal_abs u Nu), Vu, Z.abs_mul, <- (normal_abs a Na); lia).
    assert (Vv' : val (dig v) = val (dig b) * 2 ^ s) by (rewrite (normal_abs v Nv), Vv, Z.abs_mul, <- (normal_abs b Nb); lia).
    assert (Su : sign u = sign a).
    { rewrite (normal_sign u Nu), Vu, Z.sgn_mul, <- (normal_sign a Na). rewrite (Z.sgn_pos (2 ^ s)) by lia. lia. }
    (* shape of v *)
    set (P := (2 ^ 32) ^ Z.of_nat (n - 2)). pose proof (pB_pos (n - 2)) as HP. fold P in HP.
    assert (Pn : (2 ^ 32) ^ Z.of_nat n = 2 ^ 32 * (2 ^ 32 * P)) by (replace n with (S (S (n - 2))) by lia; rewrite !Nat2Z.inj_succ, !Z.pow_succ_r by lia; do 3 f_equal; unfold P; f_equal; lia).
    assert (Pn1 : (2 ^ 32) ^ Z.of_nat (n - 1) = 2 ^ 32 * P) by (replace (n - 1)%nat with (S (n - 2)) by lia; rewrite !Nat2Z.inj_succ, !Z.pow_succ_r by lia; reflexivity).
    assert (Vb2 : val (dig b) = val bl + P * (b1 + 2 ^ 32 * bt)) by (rewrite Eb, val_app, Lbl; cbn [val]; fold P; lia).
    pose proof (val_range _ Fbl) as Rbl. rewrite Lbl in Rbl. fold P in Rbl. unfold limb in Hb1.
    assert (RV : 2 ^ 31 * (2 ^ 32 * P) <= val (dig v) < 2 ^ 32 * (2 ^ 32 * P)) by (rewrite Vv'; apply (vshape P _ (val bl) b1 bt s); auto).
    assert (Lv : length (dig v) = n).
    { replace n with (S (n - 1)) by lia. apply normal_length; auto. replace (S (n - 1)) with n by lia. rewrite Pn, Pn1. lia. }
    destruct (split2 (dig v) (n - 2)) as (vl & w & z & Ev & Lvl); [lia|].
    pose proof (proj1 Nv) as Fv. rewrite Ev in Fv. apply Forall_app in Fv as [Fvl Fv]. inversion Fv as [|? ? Hw Fv2]; subst. inversion Fv2 as [|? ? Hzz _]; subst.
    assert (Hz31 : 2 ^ 31 <= z < 2 ^ 32).
    { unfold limb in Hzz, Hw. split; [|apply Hzz]. rewrite Ev, val_app, Lvl in RV. cbn [val] in RV. fold P in RV. pose proof (val_range _ Fvl) as R. rewrite Lvl in R. fold P in R.
      apply (ztop P (val vl) w); auto. rewrite Z.mul_0_r, Z.add_0_r in RV. apply RV. }
    (* u *)
    set (ud := zgrow (dig u) (length (dig u) + 1)).
    assert (Fu : Forall limb ud) by (apply limb_zgrow, Nu). assert (Vud : val ud = val (dig a) * 2 ^ s) by (subst ud; now rewrite val_zgrow).
    assert (Hm : (n <= m)%nat) by auto.
    set (Pm := (2 ^ 32) ^ Z.of_nat m) in *.
    assert (Lum : (m <= length (dig u))%nat).
    { destruct Na as [Fa [[? ?]|[_ [La _]]]]; [congruence|]. pose proof (normal_low _ Fa Da La) as Lo. fold m in Lo.
      destruct (Nat.le_gt_cases m (length (dig u))) as [?|G]; auto. pose proof (val_range _ (proj1 Nu)) as Rux.
      assert ((2 ^ 32) ^ Z.of_nat (length (dig u)) <= (2 ^ 32) ^ Z.of_nat (m - 1)) by (apply Z.pow_le_mono_r; lia). pose proof (le_shift (val (dig a)) (2 ^ s) ltac:(apply Ra) ltac:(apply Ps)). rewrite Vu' in Rux. clear - Lo Rux H H0. lia. }
    assert (Lud : length ud = S (length (dig u))) by (subst ud; rewrite zgrow_length; lia).
    set (k := (m - n + 1)%nat).
    assert (Pk : (2 ^ 32) ^ Z.of_nat k * (2 ^ 32 * P) = Pm).
    { subst Pm. rewrite <- Pn1, <- Z.pow_add_r by apply Nat2Z.is_nonneg. f_equal. subst k. clear - Hm Hn. lia. }
    pose proof (pB_pos k) as HPk. set (Pk' := (2 ^ 32) ^ Z.of_nat k) in *.
    assert (UB : val ud < Pk' * (2 ^ 31 * (2 ^ 32 * P))).
    { rewrite Vud. replace (Pk' * (2 ^ 31 * (2 ^ 32 * P))) with (Pm * 2 ^ 31) by (rewrite <- Pk; ring). apply mul_lt_le; lia. }
    destruct (divcore vl w z k ud Fvl Hw Hz31) as (rd & e & qs & Ed & Frd & Fe & Ve & Fqs & Lqs & HR & EV); auto.
    { rewrite <- Ev, Lv, Lud. subst k. clear - Hm Lum. lia. }
    { rewrite <- Ev. eapply Z.lt_le_trans; [exact UB|]. apply Z.mul_le_mono_nonneg_l; [apply Z.lt_le_incl, HPk|apply RV]. }
    rewrite <- Ev in *.
    cbv zeta. match goal with |- exists q r, ?M = Ok (q, r) /\ _ => assert (Big : M =
       Ok (trim (mkbig (zgrow qs (m + 1)) (sign a * sign b)), trim (bigshri (mkbig (rd ++ e) (sign a)) s))) end.
    { rewrite <- Su. assert (L2 : (2 <= length (dig b))%nat) by exact Hn. clearbody n. clear - L2 Eat Ed Su.
      destruct (dig b) as [|x0 [|x1 bs]]; [cbn in L2; lia|cbn in L2; lia|]. rewrite Eat. cbn [bind]. fold s. fold u v ud k. rewrite Ed. reflexivity. }
    rewrite Big. clear Big.
    assert (EVv : val (dig a) * 2 ^ s = val qs * (val (dig b) * 2 ^ s) + val rd) by (rewrite <- Vud, <- Vv'; exact EV).
    set (R := val (dig a) - val qs * val (dig b)). assert (ER : val rd = R * 2 ^ s) by (subst R; lia).
    pose proof (val_range _ Frd) as Rrd.
    assert (HRb : 0 <= R < val (dig b)) by (rewrite Vv', ER in HR; rewrite ER in Rrd; apply (rem_range (2 ^ s)); lia).
    assert (Vt : val (rd ++ e) = R * 2 ^ s) by (rewrite val_app, Ve, ER; ring).
    destruct (bigshri_spec (mkbig (rd ++ e) (sign a)) s) as [N2 E2]; cbn [dig sign]; [apply Forall_app; auto|tauto|lia|].
    cbn [dig sign] in E2. rewrite Vt, Z.div_mul in E2 by lia. rewrite (trim_normal (bigshri _ _)) by auto.
    destruct (trim_spec (mkbig (zgrow qs (m + 1)) (sign a * sign b))) as [N1 E1]; cbn [dig sign]; [apply limb_zgrow; auto|tauto|].
    do 2 eexists. split; [reflexivity|]. split; auto. split; auto.
    assert (V1 : val (dig (trim (mkbig (zgrow qs (m + 1)) (sign a * sign b)))) = val qs) by (unfold trim; cbn [dig]; now rewrite trimdig_val, val_zgrow).
    assert (V2 : val (dig (bigshri (mkbig (rd ++ e) (sign a)) s)) = R).
    { rewrite (normal_abs _ N2), E2. rewrite Z.abs_mul. destruct Sa as [->| ->]; cbn [Z.abs]; lia. }
    rewrite V1, V2. split; [subst R; lia|]. split; [lia|]. split.
    + unfold trim; cbn [dig sign]. destruct (trimdig (zgrow qs (m + 1))); congruence.
    + intros Nz. rewrite (normal_sign _ N2), E2, Z.sgn_mul. pose proof (normal_val_pos _ N2 Nz) as Pos. rewrite V2 in Pos. rewrite (Z.sgn_pos R) by lia.
      destruct Sa as [->| ->]; reflexivity.
Qed.
