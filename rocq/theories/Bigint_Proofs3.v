(* Division. *)
From Verif Require Import Base ListX Word Endian_Model Endian_Proofs Sort_Model Bigint_Model Bigint_Spec Bigint_Proofs Bigint_Proofs2.
Open Scope Z_scope.

(* ---------- nlz ---------- *)
Lemma nlz_spec a : 0 < a < 2 ^ 32 -> 0 <= nlz a < 32 /\ 2 ^ 31 <= a * 2 ^ nlz a < 2 ^ 32.
Proof.
  intros H. unfold nlz. destruct (Z.eqb_spec a 0); [lia|]. cbv zeta.
  assert (St : forall a lim k, 0 < a < 2 ^ 32 -> 0 < k <= 16 -> lim = 2 ^ (32 - k) - 1 -> a <= lim ->
     cast uint32 (Z.shiftl a k) = a * 2 ^ k /\ 0 < a * 2 ^ k < 2 ^ 32).
  { clear. intros a lim k Ha Hk -> Hl. assert (Q : 2 ^ 32 = 2 ^ (32 - k) * 2 ^ k) by (rewrite <- Z.pow_add_r by lia; f_equal; lia).
    assert (0 < 2 ^ k) by (apply Z.pow_pos_nonneg; lia). rewrite Z.shiftl_mul_pow2 by lia. rewrite c32, Z.mod_small by nia. split; auto. nia. }
  assert (X : exists n1 a1, (if a <=? 0x0000ffff then (0 + 16, cast uint32 (Z.shiftl a 16)) else (0, a)) = (n1, a1) /\
    0 <= n1 <= 16 /\ a1 = a * 2 ^ n1 /\ 2 ^ 16 <= a1 < 2 ^ 32).
  { destruct (Z.leb_spec a 0x0000ffff); do 2 eexists; (split; [reflexivity|]); [destruct (St a 0xffff 16) as [-> ?]; try lia; auto|]; lia. }
  destruct X as (n1 & a1 & -> & H1 & E1 & R1).
  assert (X : exists n2 a2, (if a1 <=? 0x00ffffff then (n1 + 8, cast uint32 (Z.shiftl a1 8)) else (n1, a1)) = (n2, a2) /\
    0 <= n2 <= 24 /\ a2 = a * 2 ^ n2 /\ 2 ^ 24 <= a2 < 2 ^ 32).
  { destruct (Z.leb_spec a1 0x00ffffff); do 2 eexists; (split; [reflexivity|]); [destruct (St a1 0xffffff 8) as [-> ?]; try lia; auto|lia].
    rewrite Z.pow_add_r by lia. lia. }
  destruct X as (n2 & a2 & -> & H2 & E2 & R2).
  assert (X : exists n3 a3, (if a2 <=? 0x0fffffff then (n2 + 4, cast uint32 (Z.shiftl a2 4)) else (n2, a2)) = (n3, a3) /\
    0 <= n3 <= 28 /\ a3 = a * 2 ^ n3 /\ 2 ^ 28 <= a3 < 2 ^ 32).
  { destruct (Z.leb_spec a2 0x0fffffff); do 2 eexists; (split; [reflexivity|]); [destruct (St a2 0xfffffff 4) as [-> ?]; try lia; auto|lia].
    rewrite Z.pow_add_r by lia. lia. }
  destruct X as (n3 & a3 & -> & H3 & E3 & R3).
  assert (X : exists n4 a4, (if a3 <=? 0x3fffffff then (n3 + 2, cast uint32 (Z.shiftl a3 2)) else (n3, a3)) = (n4, a4) /\
    0 <= n4 <= 30 /\ a4 = a * 2 ^ n4 /\ 2 ^ 30 <= a4 < 2 ^ 32).
  { destruct (Z.leb_spec a3 0x3fffffff); do 2 eexists; (split; [reflexivity|]); [destruct (St a3 0x3fffffff 2) as [-> ?]; try lia; auto|lia].
    rewrite Z.pow_add_r by lia. lia. }
  destruct X as (n4 & a4 & -> & H4 & E4 & R4).
  destruct (Z.leb_spec a4 0x7fffffff); [|lia]. rewrite Z.pow_add_r by lia. lia.
Qed.

(* ---------- single digit divisor ---------- *)
Lemma div1_spec b0 : 0 < b0 < 2 ^ 32 -> forall a, Forall limb a ->
  Forall limb (fst (div1 a b0)) /\ length (fst (div1 a b0)) = length a /\ 0 <= snd (div1 a b0) < b0 /\ val a = val (fst (div1 a b0)) * b0 + snd (div1 a b0).
Proof.
  intros Hb. induction 1 as [|x a Hx F IH]; cbn [div1]; [cbn; repeat split; auto; lia|].
  destruct (div1 a b0) as [q c]. cbn [fst snd] in *. destruct IH as (Fq & Lq & Hc & V). unfold limb in Hx.
  assert (0 <= c * 2 ^ 32 + x < b0 * 2 ^ 32) by nia. rewrite Z.shiftl_mul_pow2 by lia. rewrite (c64 (c * 2 ^ 32)) by nia. rewrite (c64 (c * 2 ^ 32 + x)) by nia.
  set (t := c * 2 ^ 32 + x) in *. pose proof (Z.div_mod t b0 ltac:(lia)) as D. pose proof (Z.mod_pos_bound t b0 ltac:(lia)) as M.
  assert (0 <= t / b0 < 2 ^ 32) by (split; [apply Z.div_pos; lia|apply Z.div_lt_upper_bound; lia]).
  rewrite c32, (Z.mod_small (t / b0)) by lia. rewrite (c64 (t / b0 * b0)) by nia. rewrite c64 by nia. cbn [val length].
  split; [constructor; auto; unfold limb; lia|]. split; [lia|]. split; [lia|]. rewrite V. subst t. nia.
Qed.

(* ---------- Knuth's algorithm D ---------- *)
Section Qhat.
Variables x y z w t : Z.
Let B := 2 ^ 32.
Hypothesis Hx : 0 <= x < 2 ^ 32. Hypothesis Hy : 0 <= y < 2 ^ 32. Hypothesis Hz : 2 ^ 31 <= z < 2 ^ 32.
Hypothesis Hw : 0 <= w < 2 ^ 32. Hypothesis Ht : 0 <= t < 2 ^ 32. Hypothesis Hxz : x <= z.
Let D := z * 2 ^ 32 + w.
Let N := x * 2 ^ 32 * 2 ^ 32 + y * 2 ^ 32 + t.
Lemma qadjust_loop fuel : forall qhat rhat, rhat = x * 2 ^ 32 + y - qhat * z -> 0 <= rhat < 2 ^ 32 -> 0 <= qhat <= 2 ^ 32 + 1 ->
  2 ^ 32 <= rhat + Z.of_nat fuel * z -> N < (qhat + 1) * D \/ 2 ^ 32 - 1 <= qhat ->
  exists q, qadjust (S fuel) qhat rhat z w t = Ok q /\ 0 <= q < 2 ^ 32 /\ q * D <= N /\ (N < (q + 1) * D \/ q = 2 ^ 32 - 1).
Proof.
  induction fuel as [|fuel IH]; intros qhat rhat Er Hr Hq Hf Hn; [lia|].
  remember (S fuel) as fuel'. cbn [qadjust]. rewrite Base_eq. destruct (Z.leb_spec (2 ^ 32) qhat) as [Hb|Hb]; cbn [orb].
  - rewrite (c64 (qhat - 1)) by lia. rewrite (c64 (rhat + z)) by lia. destruct (Z.ltb_spec (rhat + z) (2 ^ 32)).
    + subst fuel'. apply IH; try lia.
    + exists (qhat - 1). split; [reflexivity|]. assert (qhat - 1 < 2 ^ 32) by nia. split; [lia|]. split; [|lia].
      subst D N. assert ((qhat - 1) * w <= (2 ^ 32 - 1) * (2 ^ 32 - 1)) by nia. nia.
  - rewrite (c64 (rhat * 2 ^ 32)) by lia. rewrite (c64 (rhat * 2 ^ 32 + t)) by lia. rewrite (c64 (qhat * w)) by nia.
    destruct (Z.ltb_spec (rhat * 2 ^ 32 + t) (qhat * w)) as [Hlt|Hge].
    + assert (0 < qhat) by nia. rewrite (c64 (qhat - 1)) by lia. rewrite (c64 (rhat + z)) by lia.
      assert (N < qhat * D) by (subst N D; nia).
      destruct (Z.ltb_spec (rhat + z) (2 ^ 32)).
      * subst fuel'. apply IH; lia.
      * exists (qhat - 1). split; [reflexivity|]. split; [lia|]. split.
        -- subst D N. assert ((qhat - 1) * w <= (2 ^ 32 - 1) * (2 ^ 32 - 1)) by nia. nia.
        -- left. replace (qhat - 1 + 1) with qhat by lia. auto.
    + exists qhat. split; [reflexivity|]. split; [lia|]. split; [subst D N; nia|]. destruct Hn as [Hn|Hn]; auto. right. lia.
Qed.
Lemma qhat_spec :
  let xy := x * 2 ^ 32 + y in
  exists q, qadjust 4 (xy / z) (xy - xy / z * z) z w t = Ok q /\ 0 <= q < 2 ^ 32 /\ q * D <= N /\ (N < (q + 1) * D \/ q = 2 ^ 32 - 1).
Proof.
  intros xy. pose proof (Z.div_mod xy z ltac:(lia)) as E. pose proof (Z.mod_pos_bound xy z ltac:(lia)) as M.
  assert (Q : 0 <= xy / z <= 2 ^ 32 + 1).
  { split; [apply Z.div_pos; subst xy; lia|]. apply Z.lt_succ_r. apply Z.div_lt_upper_bound; subst xy; nia. }
  apply (qadjust_loop 3); subst xy; try lia.
Qed.
End Qhat.

Lemma c3264 v : cast uint32 (cast uint64 v) = v mod 2 ^ 32.
Proof.
  rewrite c32. change (cast uint64 v) with (v mod 2 ^ 64). replace (2 ^ 64) with (2 ^ 32 * 2 ^ 32) by reflexivity.
  rewrite Z.rem_mul_r by lia. rewrite Z.mul_comm, Z.mod_add by lia. apply Z.mod_mod. lia.
Qed.
Lemma shiftr_floor v : Z.shiftr v 32 = v / 2 ^ 32. Proof. apply Z.shiftr_div_pow2. lia. Qed.
Lemma mulsub_spec qhat : 0 <= qhat < 2 ^ 32 -> forall v ud c top ext, length ud = length v -> Forall limb v -> Forall limb ud -> limb top -> 0 <= c <= 2 ^ 32 ->
  exists r t', mulsub qhat v (ud ++ top :: ext) c = Ok (r ++ t' mod 2 ^ 32 :: ext, cast uint64 t') /\ length r = length v /\ Forall limb r /\
    - 2 ^ 32 <= t' < 2 ^ 32 /\ val r + (2 ^ 32) ^ Z.of_nat (length v) * t' = val ud + (2 ^ 32) ^ Z.of_nat (length v) * top - qhat * val v - c.
Proof.
  intros Hq. induction v as [|vi v IH]; intros [|ui ud] c top ext L Fv Fu Ht Hc; try discriminate.
  - cbn [mulsub app]. exists [], (top - c). rewrite c3264. split; [reflexivity|]. split; [reflexivity|]. split; [auto|]. unfold limb in Ht. split; [lia|].
    cbn [length val]. change (Z.of_nat 0) with 0. rewrite Z.pow_0_r. lia.
  - inversion Fv as [|? ? Hv Fv']; inversion Fu as [|? ? Hu Fu']; subst. cbn [mulsub app]. unfold limb in Hv, Hu.
    assert (Hp : 0 <= qhat * vi <= (2 ^ 32 - 1) * (2 ^ 32 - 1)) by nia. rewrite (c64 (qhat * vi)) by lia. set (p := qhat * vi) in *.
    rewrite Base_eq. pose proof (mod_div_32 p) as Dp. pose proof (Z.mod_pos_bound p (2 ^ 32) ltac:(lia)) as Mp.
    assert (Hpt : 0 <= p / 2 ^ 32 <= 2 ^ 32 - 2) by (split; [apply Z.div_pos; lia|]; apply Z.lt_succ_r; apply Z.div_lt_upper_bound; lia).
    set (tz := ui - c - p mod 2 ^ 32) in *.
    assert (T : cast uint64 (cast uint64 (ui - c) - p mod 2 ^ 32) = cast uint64 tz).
    { apply (cast_eq uint64); [cbn; lia|]. subst tz. apply cong_sub; [cbn; lia| |apply cong_refl]. apply (cast_cong uint64). cbn; lia. }
    rewrite T. rewrite (i64u tz) by lia. rewrite !shiftr_floor. rewrite (i64 (p / 2 ^ 32)) by lia.
    pose proof (mod_div_32 tz) as Dt. pose proof (Z.mod_pos_bound tz (2 ^ 32) ltac:(lia)) as Mt.
    assert (Rz : -2 * 2 ^ 32 < tz < 2 ^ 32) by (subst tz; lia). assert (Htz : -2 <= tz / 2 ^ 32 <= 0) by lia.
    rewrite (i64 (p / 2 ^ 32 - tz / 2 ^ 32)) by lia. rewrite (c64 (p / 2 ^ 32 - tz / 2 ^ 32)) by lia.
    destruct (IH ud (p / 2 ^ 32 - tz / 2 ^ 32) top ext) as (r & t' & -> & Lr & Fr & Ht' & V); auto; [lia|].
    cbn [bind]. exists (tz mod 2 ^ 32 :: r), t'. rewrite c3264. split; [reflexivity|]. split; [cbn [length]; lia|].
    split; [constructor; auto; unfold limb; lia|]. split; auto. cbn [length val]. rewrite Nat2Z.inj_succ, Z.pow_succ_r by lia.
    set (P := (2 ^ 32) ^ Z.of_nat (length v)) in *. nia.
Qed.
Lemma addback_spec v : forall ud c top ext, length ud = length v -> Forall limb v -> Forall limb ud -> c = 0 \/ c = 1 ->
  exists r c', addback v (ud ++ top :: ext) c = Ok (r ++ (top + c') mod 2 ^ 32 :: ext) /\ length r = length v /\ Forall limb r /\ (c' = 0 \/ c' = 1) /\
    val r + (2 ^ 32) ^ Z.of_nat (length v) * c' = val ud + val v + c.
Proof.
  induction v as [|vi v IH]; intros [|ui ud] c top ext L Fv Fu Hc; try discriminate.
  - cbn [addback app]. exists [], c. rewrite (c32 c), (Z.mod_small c) by lia. split; [reflexivity|]. repeat split; auto.
    cbn [length val]. change (Z.of_nat 0) with 0. rewrite Z.pow_0_r. lia.
  - inversion Fv as [|? ? Hv Fv']; inversion Fu as [|? ? Hu Fu']; subst. cbn [addback app]. unfold limb in Hv, Hu.
    rewrite (c64 (ui + vi)) by lia. rewrite (c64 (ui + vi + c)) by lia. rewrite shiftr_floor. set (t := ui + vi + c) in *.
    pose proof (mod_div_32 t) as Dt. pose proof (Z.mod_pos_bound t (2 ^ 32) ltac:(lia)) as Mt.
    destruct (IH ud (t / 2 ^ 32) top ext) as (r & c' & -> & Lr & Fr & Hc' & V); auto; [lia|].
    cbn [bind]. exists (cast uint32 t :: r), c'. split; [reflexivity|]. split; [cbn [length]; lia|]. split; [constructor; auto; apply limb32|]. split; auto.
    cbn [length val]. rewrite Nat2Z.inj_succ, Z.pow_succ_r by lia. rewrite c32. set (P := (2 ^ 32) ^ Z.of_nat (length v)) in *. nia.
Qed.

Lemma split_zero M a s R : 0 <= a < M -> 0 <= R < M -> a + M * s = R -> s = 0.
Proof. intros. nia. Qed.
(* one digit of the quotient: window ul ++ [t; y; x], divisor vl ++ [w; z] *)
Lemma divstep vl w z ul t y x ext : length ul = length vl -> Forall limb vl -> limb w -> 2 ^ 31 <= z < 2 ^ 32 ->
  Forall limb ul -> limb t -> limb y -> limb x -> let v := vl ++ [w; z] in let U := val (ul ++ [t; y; x]) in U < 2 ^ 32 * val v ->
  exists qh hi tt, (let xy := x * 2 ^ 32 + y in qadjust 4 (xy / z) (xy - xy / z * z) z w t) = Ok qh /\ 0 <= qh < 2 ^ 32 /\
    mulsub qh v ((ul ++ [t; y]) ++ x :: ext) 0 = Ok (hi, tt) /\
    exists rd qd, length rd = length v /\ Forall limb rd /\ limb qd /\ U = qd * val v + val rd /\ val rd < val v /\
      if cast int64 tt <? 0 then qd = cast uint32 (cast uint32 qh - 1) /\ addback v hi 0 = Ok (rd ++ 0 :: ext)
      else qd = cast uint32 qh /\ hi = rd ++ 0 :: ext.
Proof.
  intros L Fv Hw Hz Fu Ht Hy Hx v U HU. set (P := (2 ^ 32) ^ Z.of_nat (length vl)). pose proof (pB_pos (length vl)) as HP. fold P in HP.
  pose proof (val_range _ Fv) as Rv. fold P in Rv. pose proof (val_range _ Fu) as Ru. rewrite L in Ru. fold P in Ru.
  assert (EV : val v = val vl + P * (w + 2 ^ 32 * z)) by (subst v; rewrite val_app; cbn [val]; fold P; lia).
  assert (EU : U = val ul + P * (t + 2 ^ 32 * (y + 2 ^ 32 * x))) by (subst U; rewrite val_app, L; cbn [val]; fold P; lia).
  unfold limb in *. assert (Hxz : x <= z) by nia.
  destruct (qhat_spec x y z w t) as (qh & Eq & Hq & Q1 & Q2); try lia. cbv zeta in Eq.
  assert (Lv : length v = S (S (length vl))) by (subst v; rewrite app_length; cbn; lia).
  assert (Fv2 : Forall limb v) by (subst v; apply Forall_app; split; auto; repeat constructor; unfold limb; lia).
  assert (Fu2 : Forall limb (ul ++ [t; y])) by (apply Forall_app; split; auto; repeat constructor; unfold limb; lia).
  assert (PV : (2 ^ 32) ^ Z.of_nat (length v) = 2 ^ 32 * (2 ^ 32 * P)) by (rewrite Lv, !Nat2Z.inj_succ, !Z.pow_succ_r by lia; reflexivity).
  destruct (mulsub_spec qh Hq v (ul ++ [t; y]) 0 x ext) as (r & t' & Em & Lr & Fr & Ht' & Vm); auto; [rewrite app_length; cbn; lia|lia|].
  assert (EW : val (ul ++ [t; y]) + (2 ^ 32) ^ Z.of_nat (length v) * x = U).
  { rewrite val_app, L, PV, EU. cbn [val]. fold P. ring. }
  replace (val (ul ++ [t; y]) + (2 ^ 32) ^ Z.of_nat (length v) * x - qh * val v - 0) with (U - qh * val v) in Vm by lia. clear EW.
  pose proof (val_range _ Fr) as Rr. rewrite Lr, PV in Rr. rewrite PV in Vm.
  set (N := x * 2 ^ 32 * 2 ^ 32 + y * 2 ^ 32 + t) in *. set (D := z * 2 ^ 32 + w) in *.
  assert (UN : P * N <= U < P * (N + 1)) by (rewrite EU; subst N; nia).
  assert (VD : P * D <= val v < P * (D + 1)) by (rewrite EV; subst D; nia).
  assert (VB : val v < 2 ^ 32 * (2 ^ 32 * P)) by (pose proof (val_range _ Fv2) as X; rewrite PV in X; lia).
  assert (Hi : U < (qh + 1) * val v).
  { destruct Q2 as [Q2| ->]; [|lia]. assert (N1 : N + 1 <= (qh + 1) * D) by lia.
    apply Z.lt_le_trans with (P * (N + 1)); [lia|]. apply Z.le_trans with (P * ((qh + 1) * D)); [apply Z.mul_le_mono_nonneg_l; lia|].
    replace (P * ((qh + 1) * D)) with ((qh + 1) * (P * D)) by ring. apply Z.mul_le_mono_nonneg_l; lia. }
  assert (Lo : 0 <= U - qh * val v + val v).
  { assert (A1 : qh * val v <= qh * (P * (D + 1))) by (apply Z.mul_le_mono_nonneg_l; lia).
    replace (qh * (P * (D + 1))) with (P * (qh * D) + qh * P) in A1 by ring.
    assert (A2 : P * (qh * D) <= P * N) by (apply Z.mul_le_mono_nonneg_l; lia).
    assert (A3 : qh * P <= 2 ^ 32 * P) by (apply Z.mul_le_mono_nonneg_r; lia).
    assert (A4 : P * 2 ^ 32 <= P * D) by (apply Z.mul_le_mono_nonneg_l; subst D; lia). lia. }
  exists qh, (r ++ t' mod 2 ^ 32 :: ext), (cast uint64 t'). split; [exact Eq|]. split; [auto|]. split; [exact Em|].
  rewrite (i64u t') by lia. assert (U0 : 0 <= U) by lia. clear Q1 Q2 UN VD EU EV Em Eq. clearbody N D U P. destruct (Z.ltb_spec t' 0) as [Hn|Hn].
  - destruct (addback_spec v r 0 (t' mod 2 ^ 32) ext Lr Fv2 Fr) as (rd & c' & Ea & Lrd & Frd & Hc' & Va); [auto|].
    pose proof (val_range _ Frd) as Rrd. rewrite Lrd, PV in Rrd. rewrite PV in Va.
    assert (Eq0 : val rd + 2 ^ 32 * (2 ^ 32 * P) * (t' + c') = U - qh * val v + val v) by lia.
    assert (Hi2 : U - qh * val v + val v < val v).
    { assert (2 ^ 32 * (2 ^ 32 * P) * t' <= 2 ^ 32 * (2 ^ 32 * P) * (-1)) by (apply Z.mul_le_mono_nonneg_l; lia). lia. }
    assert (H : t' + c' = 0) by (apply (split_zero (2 ^ 32 * (2 ^ 32 * P)) (val rd) _ (U - qh * val v + val v)); lia).
    assert (Q0 : 1 <= qh).
    { destruct (Z.eq_dec qh 0) as [->|]; [|lia]. lia. }
    rewrite H, Z.mul_0_r, Z.add_0_r in Eq0.
    exists rd, (qh - 1). rewrite !c32. rewrite (Z.mod_small qh) by lia. rewrite (Z.mod_small (qh - 1)) by lia.
    split; auto. split; auto. split; [unfold limb; lia|]. split; [lia|]. split; [lia|]. split; auto. rewrite Ea. rewrite Z.add_mod_idemp_l by lia. rewrite H. reflexivity.
  - assert (H : t' = 0).
    { apply (split_zero (2 ^ 32 * (2 ^ 32 * P)) (val r) _ (U - qh * val v)); [lia| |lia].
      assert (0 <= 2 ^ 32 * (2 ^ 32 * P) * t') by (apply Z.mul_nonneg_nonneg; lia). lia. }
    subst t'. rewrite Z.mul_0_r, Z.add_0_r in Vm. exists r, qh. rewrite c32, Z.mod_small by lia.
    split; auto. split; auto. split; [unfold limb; lia|]. split; [lia|]. split; [lia|]. auto.
Qed.
Lemma split3 {A} (l : list A) m : length l = S (S (S m)) -> exists ul t y x, l = ul ++ [t; y; x] /\ length ul = m.
Proof.
  intros H. assert (L : length (skipn m l) = 3%nat) by (rewrite skipn_length; lia).
  destruct (skipn m l) as [|t [|y [|x [|? ?]]]] eqn:E; try discriminate. exists (firstn m l), t, y, x.
  split; [now rewrite <- E, firstn_skipn|]. rewrite firstn_length. lia.
Qed.
Lemma split2 {A} (l : list A) m : length l = S (S m) -> exists vl w z, l = vl ++ [w; z] /\ length vl = m.
Proof.
  intros H. assert (L : length (skipn m l) = 2%nat) by (rewrite skipn_length; lia).
  destruct (skipn m l) as [|w [|z [|? ?]]] eqn:E; try discriminate. exists (firstn m l), w, z.
  split; [now rewrite <- E, firstn_skipn|]. rewrite firstn_length. lia.
Qed.
Lemma at_app (a b : list Z) i : at_ (a ++ b) (length a + i) = at_ b i.
Proof. unfold at_. rewrite nth_error_app2 by lia. replace (length a + i - length a)%nat with i by lia. reflexivity. Qed.

Lemma rep k (l : list Z) : repeat 0 k ++ 0 :: l = repeat 0 (S k) ++ l.
Proof. induction k; cbn [repeat app] in *; congruence. Qed.
Lemma divloop_spec vl w z : Forall limb vl -> limb w -> 2 ^ 31 <= z < 2 ^ 32 -> let v := vl ++ [w; z] in
  forall k lo ud ext q, length lo = k -> length ud = length v -> Forall limb lo -> Forall limb ud -> val ud < val v ->
  exists rd qs, divloop k v (lo ++ ud ++ ext) q = Ok (rd ++ repeat 0 k ++ ext, qs ++ q) /\ length rd = length v /\ Forall limb rd /\
    length qs = k /\ Forall limb qs /\ val rd < val v /\ val lo + (2 ^ 32) ^ Z.of_nat k * val ud = val qs * val v + val rd.
Proof.
  intros Fv Hw Hz v. assert (Lv : length v = S (S (length vl))) by (subst v; rewrite app_length; cbn; lia).
  induction k as [|j IH]; intros lo ud ext q Ll Lu Fl Fu HV.
  - destruct lo; [|discriminate]. cbn [divloop app repeat]. exists ud, []. cbn [app val length]. change (Z.of_nat 0) with 0. rewrite Z.pow_0_r.
    repeat split; auto. lia.
  - destruct (exists_last (l := lo)) as (lo' & d & ->); [intros ->; discriminate|]. rewrite app_length in Ll. cbn [length] in Ll.
    assert (Lj : length lo' = j) by lia. apply Forall_app in Fl as [Fl Fd]. inversion Fd as [|? ? Hd _]; subst x l.
    destruct (split3 (d :: ud) (length vl)) as (ul & t & y & x & E & Lul); [cbn [length]; lia|].
    assert (Fw : Forall limb (ul ++ [t; y; x])) by (rewrite <- E; constructor; auto).
    apply Forall_app in Fw as [Ful Fw]. inversion Fw as [|? ? Ht Fw1]; subst. inversion Fw1 as [|? ? Hy Fw2]; subst. inversion Fw2 as [|? ? Hx _]; subst.
    assert (EU : val (ul ++ [t; y; x]) = d + 2 ^ 32 * val ud) by (rewrite <- E; reflexivity).
    destruct (divstep vl w z ul t y x ext Lul Fv Hw Hz Ful Ht Hy Hx) as (qh & hi & tt & Eq & Hq & Em & rd & qd & Lrd & Frd & Hqd & EQ & HR & Step).
    { fold v. unfold limb in Hd. lia. }
    fold v in Em, Lrd, EQ, HR, Step. cbv zeta in Eq.
    assert (EL : (lo' ++ [d]) ++ ud ++ ext = lo' ++ (ul ++ [t; y]) ++ x :: ext).
    { rewrite <- app_assoc. f_equal. change ([d] ++ ud ++ ext) with ((d :: ud) ++ ext). rewrite E, <- !app_assoc. reflexivity. }
    rewrite EL. cbn [divloop]. cbv zeta.
    assert (A1 : at_ (lo' ++ (ul ++ [t; y]) ++ x :: ext) (length lo' + length v) = Ok x).
    { rewrite at_app. replace (length v) with (length (ul ++ [t; y]) + 0)%nat by (rewrite app_length; cbn; lia). rewrite at_app. reflexivity. }
    assert (A2 : at_ (lo' ++ (ul ++ [t; y]) ++ x :: ext) (length lo' + length v - 1) = Ok y).
    { replace (length lo' + length v - 1)%nat with (length lo' + (length ul + 1))%nat by lia. rewrite at_app, <- app_assoc, at_app. reflexivity. }
    assert (A3 : at_ (lo' ++ (ul ++ [t; y]) ++ x :: ext) (length lo' + length v - 2) = Ok t).
    { replace (length lo' + length v - 2)%nat with (length lo' + (length ul + 0))%nat by lia. rewrite at_app, <- app_assoc, at_app. reflexivity. }
    assert (A4 : at_ v (length v - 1) = Ok z) by (replace (length v - 1)%nat with (length vl + 1)%nat by lia; apply (at_app vl)).
    assert (A5 : at_ v (length v - 2) = Ok w) by (replace (length v - 2)%nat with (length vl + 0)%nat by lia; apply (at_app vl)).
    rewrite A1, A2, A3, A4, A5. cbn [bind]. rewrite Base_eq. unfold limb in Hx, Hy. rewrite (c64 (x * 2 ^ 32)) by lia. rewrite (c64 (x * 2 ^ 32 + y)) by lia.
    set (xy := x * 2 ^ 32 + y) in *. pose proof (Z.div_mod xy z ltac:(lia)) as Dxy. pose proof (Z.mod_pos_bound xy z ltac:(lia)) as Mxy.
    assert (Bxy : 0 <= xy < 2 ^ 64) by (subst xy; lia). assert (0 <= xy / z * z <= xy) by (pose proof (Z.div_pos xy z ltac:(lia) ltac:(lia)); nia).
    rewrite (c64 (xy / z * z)) by lia. rewrite (c64 (xy - xy / z * z)) by lia. rewrite Eq. cbn [bind].
    rewrite skipn_app_exact, Em. cbn [bind]. rewrite firstn_app_exact.
    destruct (IH lo' rd (0 :: ext) (qd :: q)) as (rd2 & qs & Ed & L2 & F2 & Lq & Fq & V2 & EV); auto.
    exists rd2, (qs ++ [qd]). split.
    + destruct (cast int64 tt <? 0); destruct Step as [<- Step]; [rewrite Step; cbn [bind]|rewrite Step];
      rewrite Ed, rep, <- app_assoc; reflexivity.
    + split; auto. split; auto. split; [rewrite app_length; cbn; lia|]. split; [apply Forall_app; auto|]. split; auto.
      rewrite !val_app, Lq. cbn [val]. rewrite Nat2Z.inj_succ, Z.pow_succ_r by lia. set (P := (2 ^ 32) ^ Z.of_nat (length lo')) in *.
      transitivity (val lo' + P * (d + 2 ^ 32 * val ud)); [ring|]. rewrite <- EU, EQ. lia.
Qed.

