(* Machine words as integers: unsigned and two's complement wrap-around.  Not repository code. *)
From Verif Require Import Base.
Open Scope Z_scope.

Definition uwrap (w z : Z) : Z := z mod 2 ^ w.
Definition swrap (w z : Z) : Z := (z + 2 ^ (w - 1)) mod 2 ^ w - 2 ^ (w - 1).

Lemma pow2_pos w : 0 <= w -> 0 < 2 ^ w.
Proof. intros; apply Z.pow_pos_nonneg; lia. Qed.

Lemma pow2_split w : 0 < w -> 2 ^ w = 2 * 2 ^ (w - 1).
Proof. intros H. replace w with (1 + (w - 1)) at 1 by lia. rewrite Z.pow_add_r by lia. reflexivity. Qed.

Lemma uwrap_range w z : 0 <= w -> 0 <= uwrap w z < 2 ^ w.
Proof. intros H. apply Z.mod_pos_bound, pow2_pos; auto. Qed.

Lemma swrap_range w z : 0 < w -> - 2 ^ (w - 1) <= swrap w z < 2 ^ (w - 1).
Proof.
  intros H. unfold swrap. pose proof (Z.mod_pos_bound (z + 2 ^ (w - 1)) (2 ^ w) (pow2_pos w ltac:(lia))).
  rewrite (pow2_split w H) in *. lia.
Qed.

Lemma uwrap_small w z : 0 <= z < 2 ^ w -> uwrap w z = z.
Proof. intros; apply Z.mod_small; auto. Qed.

Lemma swrap_small w z : 0 < w -> - 2 ^ (w - 1) <= z < 2 ^ (w - 1) -> swrap w z = z.
Proof.
  intros Hw H. unfold swrap. rewrite Z.mod_small; [lia|]. rewrite (pow2_split w Hw). lia.
Qed.

Lemma uwrap_bits w z n : 0 <= w -> 0 <= n -> Z.testbit (uwrap w z) n = (n <? w) && Z.testbit z n.
Proof.
  intros Hw Hn. unfold uwrap. rewrite <- Z.land_ones by auto. rewrite Z.land_spec.
  destruct (Z.ltb_spec n w).
  - rewrite Z.ones_spec_low by lia. now rewrite andb_true_r.
  - rewrite Z.ones_spec_high by lia. now rewrite andb_false_r.
Qed.

(* a = b modulo 2^w *)
Definition cong (w a b : Z) : Prop := a mod 2 ^ w = b mod 2 ^ w.

Lemma cong_exists w a b : 0 <= w -> (cong w a b <-> exists q, a = b + q * 2 ^ w).
Proof.
  intros Hw. unfold cong. pose proof (pow2_pos w Hw) as P. split.
  - intros H. exists (a / 2 ^ w - b / 2 ^ w).
    pose proof (Z.div_mod a (2 ^ w) ltac:(lia)). pose proof (Z.div_mod b (2 ^ w) ltac:(lia)). lia.
  - intros [q ->]. apply Z.mod_add. lia.
Qed.

Lemma uwrap_cong w z : 0 <= w -> cong w (uwrap w z) z.
Proof. intros Hw. unfold cong, uwrap. apply Z.mod_mod. pose proof (pow2_pos w Hw); lia. Qed.

Lemma swrap_cong w z : 0 < w -> cong w (swrap w z) z.
Proof.
  intros Hw. apply cong_exists; [lia|]. unfold swrap.
  pose proof (pow2_pos w ltac:(lia)) as P.
  pose proof (Z.div_mod (z + 2 ^ (w - 1)) (2 ^ w) ltac:(lia)) as D.
  exists (- ((z + 2 ^ (w - 1)) / 2 ^ w)). lia.
Qed.

Lemma swrap_eq w a b : 0 < w -> (swrap w a = swrap w b <-> cong w a b).
Proof.
  intros Hw. split.
  - intros H. unfold cong. rewrite <- (swrap_cong w a Hw), <- (swrap_cong w b Hw). now rewrite H.
  - intros H. apply cong_exists in H as [q ->]; [|lia]. unfold swrap. f_equal.
    replace (b + q * 2 ^ w + 2 ^ (w - 1)) with (b + 2 ^ (w - 1) + q * 2 ^ w) by lia.
    apply Z.mod_add. pose proof (pow2_pos w ltac:(lia)); lia.
Qed.

Lemma uwrap_eq w a b : uwrap w a = uwrap w b <-> cong w a b.
Proof. reflexivity. Qed.

Lemma cong_refl w a : cong w a a. Proof. reflexivity. Qed.
Lemma cong_sym w a b : cong w a b -> cong w b a. Proof. unfold cong; congruence. Qed.
Lemma cong_trans w a b c : cong w a b -> cong w b c -> cong w a c. Proof. unfold cong; congruence. Qed.
Lemma cong_add w a b c d : 0 <= w -> cong w a b -> cong w c d -> cong w (a + c) (b + d).
Proof. intros Hw; rewrite !cong_exists by auto; intros [p ->] [q ->]. exists (p + q). lia. Qed.
Lemma cong_sub w a b c d : 0 <= w -> cong w a b -> cong w c d -> cong w (a - c) (b - d).
Proof. intros Hw; rewrite !cong_exists by auto; intros [p ->] [q ->]. exists (p - q). lia. Qed.
Lemma cong_mul w a b c d : 0 <= w -> cong w a b -> cong w c d -> cong w (a * c) (b * d).
Proof. intros Hw; rewrite !cong_exists by auto; intros [p ->] [q ->]. exists (p * d + b * q + p * q * 2 ^ w). lia. Qed.
Lemma cong_opp w a b : 0 <= w -> cong w a b -> cong w (- a) (- b).
Proof. intros Hw; rewrite !cong_exists by auto; intros [p ->]. exists (- p). lia. Qed.

Lemma cong_bits w a b : 0 <= w -> (cong w a b <-> forall n, 0 <= n < w -> Z.testbit a n = Z.testbit b n).
Proof.
  intros Hw. unfold cong. split.
  - intros H n Hn. assert (E : Z.testbit (uwrap w a) n = Z.testbit (uwrap w b) n) by (unfold uwrap; now rewrite H).
    rewrite !uwrap_bits in E by lia. destruct (Z.ltb_spec n w); [|lia]. exact E.
  - intros H. change (uwrap w a = uwrap w b). apply Z.bits_inj'. intros n Hn.
    rewrite !uwrap_bits by lia. destruct (Z.ltb_spec n w); auto. cbn [andb]. apply H; lia.
Qed.

(* a smaller width is determined by a larger *)
Lemma cong_le v w a b : 0 <= v <= w -> cong w a b -> cong v a b.
Proof. intros H; rewrite !cong_bits by lia. intros E n Hn. apply E; lia. Qed.

Lemma swrap_uwrap w z : 0 < w -> swrap w (uwrap w z) = swrap w z.
Proof. intros H. apply swrap_eq; auto. apply uwrap_cong; lia. Qed.
Lemma uwrap_swrap w z : 0 < w -> uwrap w (swrap w z) = uwrap w z.
Proof. intros H. apply swrap_cong; auto. Qed.

Lemma land_255 z : Z.land z 255 = z mod 256.
Proof. change 255 with (Z.ones 8). rewrite Z.land_ones by lia. reflexivity. Qed.

(* OR of a shifted part and a small part is their sum *)
Lemma lor_add a b k : 0 <= k -> 0 <= b < 2 ^ k -> Z.lor (a * 2 ^ k) b = a * 2 ^ k + b.
Proof.
  intros Hk Hb. symmetry. rewrite <- Z.lxor_lor.
  - apply Z.add_nocarry_lxor. apply Z.bits_inj'. intros n Hn. rewrite Z.land_spec, Z.bits_0.
    destruct (Z.lt_ge_cases n k) as [H|H].
    + rewrite <- Z.shiftl_mul_pow2 by auto. rewrite Z.shiftl_spec_low by auto. reflexivity.
    + rewrite <- (Z.mod_small b (2 ^ k)) by auto. rewrite Z.mod_pow2_bits_high by lia. apply andb_false_r.
  - apply Z.bits_inj'. intros n Hn. rewrite Z.land_spec, Z.bits_0.
    destruct (Z.lt_ge_cases n k) as [H|H].
    + rewrite <- Z.shiftl_mul_pow2 by auto. rewrite Z.shiftl_spec_low by auto. reflexivity.
    + rewrite <- (Z.mod_small b (2 ^ k)) by auto. rewrite Z.mod_pow2_bits_high by lia. apply andb_false_r.
Qed.
