(* Shifts and schoolbook multiplication. *)
From Verif Require Import Base ListX Word Endian_Model Endian_Proofs Sort_Model Bigint_Model Bigint_Spec Bigint_Proofs.
Open Scope Z_scope.

(* ---------- shifts ---------- *)
Lemma blit_up_length k : forall off d, length (blit_up k off d) = length d.
Proof. induction k as [|k IH]; intros off d; cbn [blit_up]; auto. rewrite IH, upd_length. reflexivity. Qed.
Lemma blit_up_nth k : forall off d i, (off + k <= length d)%nat ->
  nth i (blit_up k off d) 0 = if (off <=? i)%nat && (i <? off + k)%nat then nth (i - off) d 0 else nth i d 0.
Proof.
  induction k as [|k IH]; intros off d i H; cbn [blit_up].
  - destruct (Nat.leb_spec off i), (Nat.ltb_spec i (off + 0)); cbn [andb]; auto. lia.
  - rewrite IH by (rewrite upd_length; lia). rewrite !nth_upd.
    destruct (Nat.leb_spec off i), (Nat.ltb_spec i (off + k)), (Nat.ltb_spec i (off + S k)); cbn [andb]; try lia;
    repeat match goal with |- context [Nat.eqb ?a ?b] => destruct (Nat.eqb_spec a b) end; cbn [andb]; try lia; auto.
    destruct (Nat.ltb_spec (off + k) (length d)); [|lia]. f_equal. lia.
Qed.
Lemma clear_low_length k : forall d, length (clear_low k d) = length d.
Proof. induction k as [|k IH]; intros d; cbn [clear_low]; auto. rewrite IH, upd_length. reflexivity. Qed.
Lemma clear_low_nth k : forall d i, (k <= length d)%nat -> nth i (clear_low k d) 0 = if (i <? k)%nat then 0 else nth i d 0.
Proof.
  induction k as [|k IH]; intros d i H; cbn [clear_low].
  - destruct (Nat.ltb_spec i 0); auto. lia.
  - rewrite IH by (rewrite upd_length; lia). rewrite nth_upd.
    destruct (Nat.ltb_spec i k), (Nat.ltb_spec i (S k)), (Nat.eqb_spec k i); cbn [andb]; try lia; auto.
    destruct (Nat.ltb_spec k (length d)); auto. lia.
Qed.
Lemma shifted_digits d off : clear_low off (blit_up (1 + length d + off - off) off (zgrow d (1 + length d + off))) = repeat 0 off ++ d ++ [0].
Proof.
  set (n := (1 + length d + off)%nat). assert (L : length (zgrow d n) = n) by (apply zgrow_length; lia).
  apply nth_ext with 0 0.
  { rewrite clear_low_length, blit_up_length, L, !app_length, repeat_length. cbn [length]. lia. }
  intros i Hi. rewrite clear_low_length, blit_up_length, L in Hi. rewrite clear_low_nth by (rewrite blit_up_length; lia).
  rewrite blit_up_nth by lia. destruct (Nat.ltb_spec i off).
  - rewrite app_nth1 by (rewrite repeat_length; auto). now rewrite nth_repeat.
  - destruct (Nat.leb_spec off i); [|lia]. destruct (Nat.ltb_spec i (off + (n - off))); [|lia]. cbn [andb].
    rewrite (app_nth2 (repeat 0 off)) by (rewrite repeat_length; auto). rewrite repeat_length. unfold zgrow.
    destruct (Nat.lt_ge_cases (i - off) (length d)).
    + now rewrite !app_nth1 by auto.
    + rewrite !app_nth2 by auto. replace (i - off - length d)%nat with 0%nat by lia. cbn [nth]. destruct (n - length d)%nat; auto.
Qed.

Lemma lor_low a b k : 0 <= k -> 0 <= b < 2 ^ k -> (2 ^ k | a) -> Z.lor a b = a + b.
Proof. intros Hk Hb [q ->]. now rewrite lor_add. Qed.
Lemma shl_loop_spec s : 0 <= s < 32 -> forall d c, Forall limb d -> 0 <= c < 2 ^ s -> val d * 2 ^ s + c < (2 ^ 32) ^ Z.of_nat (length d) ->
  Forall limb (shl_loop d s c) /\ val (shl_loop d s c) = val d * 2 ^ s + c.
Proof.
  intros Hs. assert (P : 0 < 2 ^ s <= 2 ^ 31) by (split; [apply Z.pow_pos_nonneg; lia|apply Z.pow_le_mono_r; lia]).
  assert (Q : 2 ^ 32 = 2 ^ (32 - s) * 2 ^ s) by (rewrite <- Z.pow_add_r by lia; f_equal; lia).
  assert (Q0 : 0 < 2 ^ (32 - s)) by (apply Z.pow_pos_nonneg; lia).
  induction d as [|x d IH]; intros c F Hc Hv; cbn [shl_loop val length] in *.
  - change (Z.of_nat 0) with 0 in Hv. rewrite Z.pow_0_r in Hv. split; auto. lia.
  - inversion F as [|? ? Hx F']; subst. unfold limb in Hx. rewrite Nat2Z.inj_succ, Z.pow_succ_r in Hv by lia.
    rewrite Z.shiftl_mul_pow2 by lia. rewrite c64 by nia. rewrite Z.shiftr_div_pow2 by lia.
    rewrite (lor_low _ _ s) by (try lia; apply Z.divide_factor_r).
    set (t := x * 2 ^ s) in *.
    assert (E : (t + c) / 2 ^ 32 = t / 2 ^ 32 /\ 0 <= t / 2 ^ 32 < 2 ^ s).
    { pose proof (Z.div_mod x (2 ^ (32 - s)) ltac:(lia)) as D. pose proof (Z.mod_pos_bound x (2 ^ (32 - s)) ltac:(lia)) as Dm.
      set (h := x / 2 ^ (32 - s)) in *. set (l := x mod 2 ^ (32 - s)) in *.
      assert (T : t = 2 ^ 32 * h + l * 2 ^ s) by (subst t; rewrite D, Q; ring).
      assert (l * 2 ^ s + c < 2 ^ 32) by (rewrite Q; nia).
      assert (t / 2 ^ 32 = h) by (symmetry; apply Z.div_unique with (l * 2 ^ s); [left; nia|lia]).
      split; [rewrite H0; symmetry; apply Z.div_unique with (l * 2 ^ s + c); [left; nia|lia]|]. rewrite H0.
      split; [apply Z.div_pos; lia|]. apply Z.div_lt_upper_bound; nia. }
    destruct E as [E1 E2]. pose proof (mod_div_32 (t + c)) as D. rewrite E1 in D. pose proof (Z.mod_pos_bound (t + c) (2 ^ 32) ltac:(lia)).
    destruct (IH (t / 2 ^ 32)) as [F2 V2]; auto.
    + nia.
    + split; [constructor; auto; apply limb32|]. rewrite c32, V2. subst t. nia.
Qed.
Lemma pow32 n : (2 ^ 32) ^ Z.of_nat n = 2 ^ (32 * Z.of_nat n).
Proof. now rewrite <- Z.pow_mul_r by lia. Qed.
Lemma bigshli_spec a s : normal a -> 0 <= s -> normal (bigshli a s) /\ number (bigshli a s) = number a * 2 ^ s.
Proof.
  intros Na Hs. unfold bigshli. destruct (Z.eqb_spec (sign a) 0) as [E|E].
  { split; auto. unfold number. rewrite E. lia. }
  rewrite shifted_digits. set (off := Z.to_nat (s / 32)). pose proof (Z.mod_pos_bound s 32 ltac:(lia)) as Hm.
  pose proof (val_range _ (proj1 Na)) as Va.
  assert (P : 0 < 2 ^ (s mod 32) <= 2 ^ 31) by (split; [apply Z.pow_pos_nonneg; lia|apply Z.pow_le_mono_r; lia]).
  pose proof (pB_pos off) as Po.
  assert (V : val (repeat 0 off ++ dig a ++ [0]) = (2 ^ 32) ^ Z.of_nat off * val (dig a)).
  { rewrite val_app, val_zeros, repeat_length, val_app. cbn [val]. lia. }
  destruct (shl_loop_spec (s mod 32) Hm (repeat 0 off ++ dig a ++ [0]) 0) as [F2 V2].
  - apply Forall_app. split; [apply limb_zeros|]. apply Forall_app. split; [apply Na|]. constructor; auto. unfold limb. lia.
  - lia.
  - rewrite V, !app_length, repeat_length. cbn [length].
    replace (Z.of_nat (off + (length (dig a) + 1))) with (Z.of_nat off + (Z.of_nat (length (dig a)) + 1)) by lia.
    rewrite Z.pow_add_r, (Z.pow_add_r _ (Z.of_nat (length (dig a)))), Z.pow_1_r by lia. rewrite Z.add_0_r, <- Z.mul_assoc. apply Z.mul_lt_mono_pos_l; auto. nia.
  - destruct (trim_spec (mkbig (shl_loop (repeat 0 off ++ dig a ++ [0]) (s mod 32) 0) (sign a))) as [N2 E2]; auto.
    + cbn [sign]. destruct Na as [_ [[_ ?]|[_ [_ [?|?]]]]]; auto. congruence.
    + split; auto. rewrite E2. unfold number. cbn [dig sign]. rewrite V2, V.
      assert (2 ^ s = (2 ^ 32) ^ Z.of_nat off * 2 ^ (s mod 32)).
      { rewrite pow32. rewrite <- Z.pow_add_r by lia. f_equal. subst off. rewrite Z2Nat.id by (apply Z.div_pos; lia). pose proof (Z.div_mod s 32 ltac:(lia)). lia. }
      rewrite H. ring.
Qed.

Lemma blit_down_length k : forall i off d, length (blit_down k i off d) = length d.
Proof. induction k as [|k IH]; intros i off d; cbn [blit_down]; auto. rewrite IH, upd_length. reflexivity. Qed.
Lemma blit_down_nth k : forall i off d p, (i + k + off <= length d)%nat ->
  nth p (blit_down k i off d) 0 = if (i <=? p)%nat && (p <? i + k)%nat then nth (p + off) d 0 else nth p d 0.
Proof.
  induction k as [|k IH]; intros i off d p H; cbn [blit_down].
  - destruct (Nat.leb_spec i p), (Nat.ltb_spec p (i + 0)); cbn [andb]; auto. lia.
  - rewrite IH by (rewrite upd_length; lia). rewrite !nth_upd.
    destruct (Nat.ltb_spec i (length d)); [|lia].
    destruct (Nat.leb_spec (S i) p), (Nat.leb_spec i p), (Nat.ltb_spec p (S i + k)), (Nat.ltb_spec p (i + S k)); cbn [andb]; try lia;
    repeat match goal with |- context [Nat.eqb ?a ?b] => destruct (Nat.eqb_spec a b) end; cbn [andb]; try lia; auto.
    + f_equal. lia.
Qed.
Lemma nth_firstn_lt {A} (l : list A) (e : A) : forall k i, (i < k)%nat -> nth i (firstn k l) e = nth i l e.
Proof. induction l as [|x l IH]; intros [|k] [|i] H; cbn; auto; try lia. apply IH. lia. Qed.
Lemma nth_skipn {A} (l : list A) (e : A) : forall n i, nth i (skipn n l) e = nth (n + i) l e.
Proof. induction l as [|x l IH]; intros [|n] i; cbn; auto. destruct i; auto. Qed.
Lemma unshifted_digits d off : (off <= length d)%nat -> firstn (length d - off) (blit_down (length d - off) 0 off d) = skipn off d.
Proof.
  intros H. apply nth_ext with 0 0.
  { rewrite firstn_length, blit_down_length, skipn_length. lia. }
  intros i Hi. rewrite firstn_length, blit_down_length in Hi. rewrite nth_firstn_lt by lia. rewrite blit_down_nth by lia.
  destruct (Nat.leb_spec 0 i); [|lia]. destruct (Nat.ltb_spec i (0 + (length d - off))); [|lia]. cbn [andb]. rewrite nth_skipn. f_equal. lia.
Qed.
Lemma lor_mod a b k : 0 <= k -> Z.lor a b mod 2 ^ k = Z.lor (a mod 2 ^ k) (b mod 2 ^ k).
Proof.
  intros Hk. apply Z.bits_inj'. intros n Hn. rewrite Z.lor_spec.
  destruct (Z.lt_ge_cases n k).
  - rewrite !Z.mod_pow2_bits_low, Z.lor_spec by lia. reflexivity.
  - rewrite !Z.mod_pow2_bits_high by lia. reflexivity.
Qed.
Lemma shr_loop_spec s : 0 <= s < 32 -> forall d, Forall limb d ->
  Forall limb (fst (shr_loop d s)) /\ val (fst (shr_loop d s)) = val d / 2 ^ s /\ snd (shr_loop d s) mod 2 ^ 32 = (val d mod 2 ^ s) * 2 ^ (32 - s).
Proof.
  intros Hs. assert (P : 0 < 2 ^ s <= 2 ^ 31) by (split; [apply Z.pow_pos_nonneg; lia|apply Z.pow_le_mono_r; lia]).
  assert (Q : 2 ^ 32 = 2 ^ (32 - s) * 2 ^ s) by (rewrite <- Z.pow_add_r by lia; f_equal; lia).
  assert (Q0 : 0 < 2 ^ (32 - s) <= 2 ^ 32) by (split; [apply Z.pow_pos_nonneg; lia|apply Z.pow_le_mono_r; lia]).
  induction 1 as [|x d Hx F IH]; cbn [shr_loop val].
  - split; [constructor|]. cbn [fst snd val]. rewrite Z.div_0_l, Z.mod_0_l by lia. auto.
  - destruct (shr_loop d s) as [r c]. cbn [fst snd] in *. destruct IH as (Fr & Vr & Cr). unfold limb in Hx.
    split; [constructor; auto; apply limb32|].
    pose proof (Z.div_mod (val d) (2 ^ s) ltac:(lia)) as Dv. pose proof (Z.mod_pos_bound (val d) (2 ^ s) ltac:(lia)) as Mv.
    pose proof (Z.div_mod x (2 ^ s) ltac:(lia)) as Dx. pose proof (Z.mod_pos_bound x (2 ^ s) ltac:(lia)) as Mx.
    assert (X : 0 <= x / 2 ^ s < 2 ^ (32 - s)) by (split; [apply Z.div_pos; lia|apply Z.div_lt_upper_bound; lia]).
    split.
    + cbn [val]. rewrite Vr, c32, lor_mod, Cr by lia. rewrite Z.shiftr_div_pow2 by lia. rewrite (Z.mod_small (x / 2 ^ s)) by lia.
      rewrite (lor_low _ _ (32 - s)) by (try lia; apply Z.divide_factor_r).
      apply Z.div_unique with (x mod 2 ^ s); [lia|]. rewrite Dx at 1. rewrite Dv at 1. rewrite Q. ring.
    + rewrite Z.shiftl_mul_pow2 by lia. rewrite c64 by nia.
      assert ((x + 2 ^ 32 * val d) mod 2 ^ s = x mod 2 ^ s) as ->.
      { rewrite Q. replace (x + 2 ^ (32 - s) * 2 ^ s * val d) with (x + (2 ^ (32 - s) * val d) * 2 ^ s) by ring. apply Z.mod_add. lia. }
      replace (2 ^ 32) with (2 ^ s * 2 ^ (32 - s)) by lia. apply Z.mul_mod_distr_r; lia.
Qed.
Lemma val_skipn d off : (off <= length d)%nat -> Forall limb d -> val (skipn off d) = val d / (2 ^ 32) ^ Z.of_nat off.
Proof.
  intros H F. rewrite <- (firstn_skipn off d) at 2. rewrite val_app, firstn_length. replace (Nat.min off (length d)) with off by lia.
  assert (F1 : Forall limb (firstn off d)) by (rewrite <- (firstn_skipn off d) in F; apply Forall_app in F; tauto).
  pose proof (val_range _ F1) as R. rewrite firstn_length in R. replace (Nat.min off (length d)) with off in R by lia.
  apply Z.div_unique with (val (firstn off d)); lia.
Qed.
Lemma Forall_skipn {A} (P : A -> Prop) n l : Forall P l -> Forall P (skipn n l).
Proof. intros F. rewrite <- (firstn_skipn n l) in F. apply Forall_app in F. tauto. Qed.
Lemma Forall_firstn {A} (P : A -> Prop) n l : Forall P l -> Forall P (firstn n l).
Proof. intros F. rewrite <- (firstn_skipn n l) in F. apply Forall_app in F. tauto. Qed.
Lemma bigshri_spec a s : Forall limb (dig a) -> sign a = 1 \/ sign a = -1 \/ val (dig a) = 0 -> 0 <= s ->
  normal (bigshri a s) /\ number (bigshri a s) = sign a * (val (dig a) / 2 ^ s).
Proof.
  intros Fa Sa Hs. unfold bigshri. set (off := Z.to_nat (s / 32)). pose proof (Z.mod_pos_bound s 32 ltac:(lia)) as Hm.
  assert (E : 2 ^ s = (2 ^ 32) ^ Z.of_nat off * 2 ^ (s mod 32)).
  { rewrite pow32. rewrite <- Z.pow_add_r by lia. f_equal. subst off. rewrite Z2Nat.id by (apply Z.div_pos; lia). pose proof (Z.div_mod s 32 ltac:(lia)). lia. }
  pose proof (val_range _ Fa) as R. pose proof (pB_pos off) as Po.
  assert (P : 0 < 2 ^ (s mod 32)) by (apply Z.pow_pos_nonneg; lia).
  destruct (Nat.ltb_spec (length (dig a)) off) as [L|L].
  - assert (val (dig a) / 2 ^ s = 0) as ->.
    { apply Z.div_small. assert ((2 ^ 32) ^ Z.of_nat (length (dig a)) <= (2 ^ 32) ^ Z.of_nat off) by (apply Z.pow_le_mono_r; lia). nia. }
    split; [split; cbn; auto|]. unfold number. cbn. lia.
  - rewrite unshifted_digits by auto. destruct (shr_loop_spec (s mod 32) Hm (skipn off (dig a)) (Forall_skipn _ _ _ Fa)) as (Fr & Vr & _).
    rewrite val_skipn, Z.div_div in Vr by (auto; lia). rewrite <- E in Vr.
    destruct (trim_spec (mkbig (fst (shr_loop (skipn off (dig a)) (s mod 32))) (sign a))) as [N2 E2]; auto; cbn [dig sign].
    + rewrite Vr. destruct Sa as [?|[?|Z0]]; auto. right. right. rewrite Z0. apply Z.div_0_l. nia.
    + split; auto. rewrite E2. unfold number. cbn [dig sign]. rewrite Vr. reflexivity.
Qed.

(* ---------- schoolbook multiplication ---------- *)
Lemma mulrow_spec bj : limb bj -> forall a w1 c w2, length w1 = length a -> Forall limb a -> Forall limb w1 -> 0 <= c < 2 ^ 32 ->
  exists r, mulrow a bj (w1 ++ 0 :: w2) c = Ok (r ++ w2) /\ length r = S (length a) /\ Forall limb r /\ val r = val w1 + bj * val a + c.
Proof.
  intros Hb. induction a as [|x a IH]; intros [|y w1] c w2 L Fa Fw Hc; try discriminate.
  - cbn [mulrow app]. exists [cast uint32 c]. split; [reflexivity|]. split; [reflexivity|]. split; [constructor; auto; apply limb32|].
    cbn [val]. rewrite c32, Z.mod_small by lia. lia.
  - inversion Fa as [|? ? Hx Fa']; inversion Fw as [|? ? Hy Fw']; subst. unfold limb in *. cbn [mulrow app].
    assert (0 <= x * bj <= (2 ^ 32 - 1) * (2 ^ 32 - 1)) by nia.
    rewrite (c64 (x * bj)) by lia. rewrite (c64 (x * bj + y)) by lia. rewrite c64 by lia. rewrite Z.shiftr_div_pow2 by lia.
    set (t := x * bj + y + c) in *. pose proof (mod_div_32 t) as D. pose proof (Z.mod_pos_bound t (2 ^ 32) ltac:(lia)).
    destruct (IH w1 (t / 2 ^ 32) w2) as (r & -> & Lr & Fr & Vr); auto.
    { split; [apply Z.div_pos; lia|apply Z.div_lt_upper_bound; lia]. }
    exists (cast uint32 t :: r). split; [reflexivity|]. split; [cbn [length]; lia|]. split; [constructor; auto; apply limb32|].
    cbn [val]. rewrite c32, Vr. lia.
Qed.
Lemma mulrows_spec a : Forall limb a -> forall b w1, length w1 = length a -> Forall limb w1 -> Forall limb b ->
  exists r, mulrows a b (w1 ++ repeat 0 (length b)) = Ok r /\ Forall limb r /\ val r = val w1 + val a * val b.
Proof.
  intros Fa. induction b as [|bj b IH]; intros w1 L Fw Fb; cbn [mulrows length repeat].
  - exists w1. rewrite app_nil_r. cbn [val]. repeat split; auto. lia.
  - inversion Fb as [|? ? Hb Fb']; subst. destruct (mulrow_spec bj Hb a w1 0 (repeat 0 (length b)) L Fa Fw ltac:(lia)) as (r & -> & Lr & Fr & Vr).
    cbn [bind]. destruct r as [|w0 r]; [discriminate|]. cbn [app]. inversion Fr; subst. injection Lr as Lr.
    destruct (IH r Lr) as (r2 & -> & F2 & V2); auto. cbn [bind]. eexists. split; [reflexivity|]. split; [constructor; auto|]. cbn [val] in *. rewrite V2. nia.
Qed.
Lemma smallmul_spec a b : Forall limb (dig a) -> Forall limb (dig b) -> sign a = 1 \/ sign a = -1 \/ val (dig a) * val (dig b) = 0 ->
  exists r, smallmul a b = Ok r /\ normal r /\ number r = sign a * (val (dig a) * val (dig b)).
Proof.
  intros Fa Fb S. unfold smallmul. rewrite repeat_app.
  destruct (mulrows_spec (dig a) Fa (dig b) (repeat 0 (length (dig a)))) as (r & -> & Fr & Vr); [apply repeat_length|apply limb_zeros|auto|].
  rewrite val_zeros in Vr. cbn [bind]. eexists. split; [reflexivity|]. destruct (trim_spec (mkbig r (sign a))) as [N E]; auto.
  - cbn [sign dig]. rewrite Vr. destruct S as [?|[?|?]]; auto.
  - split; auto. rewrite E. unfold number. cbn [sign dig]. rewrite Vr. reflexivity.
Qed.
Lemma bigmul_spec a b : normal a -> normal b -> (length (dig a) < Kmin)%nat \/ (length (dig b) < Kmin)%nat ->
  exists r, bigmul a b = Ok r /\ normal r /\ number r = number a * number b.
Proof.
  intros Na Nb L. unfold bigmul. destruct ((sign a =? 0) || (sign b =? 0)) eqn:Q.
  { eexists. split; [reflexivity|]. split; [split; cbn; auto|]. unfold number. cbn [sign bigclear].
    apply orb_true_iff in Q as [Q|Q]; apply Z.eqb_eq in Q; rewrite Q; lia. }
  apply orb_false_iff in Q as [Qa Qb]. apply Z.eqb_neq in Qa, Qb.
  assert (Ta : sign a = 1 \/ sign a = -1) by (destruct Na as [_ [[? ?]|[? [? ?]]]]; [congruence|auto]).
  assert (Tb : sign b = 1 \/ sign b = -1) by (destruct Nb as [_ [[? ?]|[? [? ?]]]]; [congruence|auto]).
  cbv zeta. unfold mulfuel. cbn [umul]. replace ((length (dig a) <? Kmin)%nat || (length (dig b) <? Kmin)%nat) with true
    by (symmetry; destruct (Nat.ltb_spec (length (dig a)) Kmin), (Nat.ltb_spec (length (dig b)) Kmin); auto; lia).
  destruct (smallmul_spec a b) as (r & -> & Nr & Er); [apply Na|apply Nb|tauto|]. cbn [bind]. eexists. split; [reflexivity|].
  pose proof (val_range _ (proj1 Na)). pose proof (val_range _ (proj1 Nb)).
  assert (V : val (dig r) = val (dig a) * val (dig b)) by (rewrite (normal_abs r Nr), Er, Z.abs_mul; destruct Ta as [->| ->]; cbn [Z.abs]; nia).
  destruct (trim_spec (mkbig (dig r) (if negb (sign a =? sign b) then -1 else 1))) as [N E]; [apply Nr|cbn [sign]; destruct (sign a =? sign b); cbn; auto|].
  split; auto. rewrite E. unfold number. cbn [sign dig]. rewrite V. destruct Ta as [->| ->], Tb as [->| ->]; cbn [Z.eqb negb Pos.eqb]; lia.
Qed.
