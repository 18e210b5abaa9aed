From Verif Require Import Base Word Endian_Model Endian_Spec.
Open Scope Z_scope.
Ltac Zify.zify_post_hook ::= Z.div_mod_to_equations.

Lemma p256 n : 256 ^ Z.of_nat n = 2 ^ (8 * Z.of_nat n).
Proof. rewrite Z.pow_mul_r by lia. reflexivity. Qed.
Lemma p256_pos n : 0 < 256 ^ Z.of_nat n.
Proof. apply Z.pow_pos_nonneg; lia. Qed.
Lemma p256_S n : 256 ^ Z.of_nat (S n) = 256 * 256 ^ Z.of_nat n.
Proof. rewrite Nat2Z.inj_succ, Z.pow_succ_r by lia. reflexivity. Qed.
Lemma le_val_little l : le_val l = little l.
Proof. reflexivity. Qed.

Lemma cast_cong t z : 0 < w t -> cong (w t) (cast t z) z.
Proof. intros H. unfold cast. destruct (sgn t); [apply swrap_cong|apply uwrap_cong]; lia. Qed.
Lemma cast_eq t a b : 0 < w t -> (cast t a = cast t b <-> cong (w t) a b).
Proof. intros H. unfold cast. destruct (sgn t); [apply swrap_eq; auto|apply uwrap_eq]. Qed.
Lemma cast_idem t z : 0 < w t -> cast t (cast t z) = cast t z.
Proof. intros H. apply cast_eq; auto. now apply cast_cong. Qed.

Lemma le_image_S n v : le_image (S n) v = v mod 256 :: le_image n (v / 256).
Proof.
  unfold le_image. cbn [seq map]. f_equal; [now rewrite Z.div_1_r|]. rewrite <- seq_shift, map_map. apply map_ext. intros i.
  rewrite p256_S, Z.div_div by (try apply p256_pos; lia). reflexivity.
Qed.
Lemma le_image_snoc n v : le_image (S n) v = le_image n v ++ [v / 256 ^ Z.of_nat n mod 256].
Proof. unfold le_image. rewrite seq_S, map_app. reflexivity. Qed.
Lemma le_image_length n v : length (le_image n v) = n.
Proof. unfold le_image. rewrite map_length, seq_length. reflexivity. Qed.
Lemma le_image_bytes n v : Forall isbyte (le_image n v).
Proof. unfold le_image. apply Forall_forall. intros x Hx. apply in_map_iff in Hx as (i & <- & _). unfold isbyte. lia. Qed.
Lemma little_le_image n : forall v, little (le_image n v) = v mod 256 ^ Z.of_nat n.
Proof.
  induction n as [|n IH]; intros v; [cbn; now rewrite Z.mod_1_r|].
  rewrite le_image_S. cbn [little]. rewrite IH, p256_S. rewrite Z.rem_mul_r by (try apply p256_pos; lia). reflexivity.
Qed.
Lemma low_bytes_le_image n v : low_bytes n v (le_image n v).
Proof. repeat split; [apply le_image_length|apply le_image_bytes|apply little_le_image]. Qed.
Lemma little_range l : Forall isbyte l -> 0 <= little l < 256 ^ Z.of_nat (length l).
Proof.
  induction 1 as [|b l Hb _ IH]; cbn [little length]; [cbn; lia|]. rewrite p256_S. unfold isbyte in Hb. lia.
Qed.
Lemma little_inj l : forall m, length l = length m -> Forall isbyte l -> Forall isbyte m -> little l = little m -> l = m.
Proof.
  induction l as [|b l IH]; intros [|c m] HL Hl Hm E; try discriminate; auto. inversion Hl; inversion Hm; subst.
  cbn [little] in E. unfold isbyte in *. assert (b = c) by lia. subst. f_equal. apply IH; auto. lia.
Qed.
Lemma low_bytes_unique n v l m : low_bytes n v l -> low_bytes n v m -> l = m.
Proof. intros (A1 & A2 & A3) (B1 & B2 & B3). apply little_inj; auto; congruence. Qed.
Lemma le_image_mod n u v : cong (8 * Z.of_nat n) u v -> le_image n u = le_image n v.
Proof.
  intros H. apply (low_bytes_unique n u); [apply low_bytes_le_image|]. destruct (low_bytes_le_image n v) as (A & B & C).
  repeat split; auto. rewrite C, p256. symmetry. exact H.
Qed.
Lemma le_image_little l : Forall isbyte l -> le_image (length l) (little l) = l.
Proof.
  intros H. apply (low_bytes_unique (length l) (little l)); [apply low_bytes_le_image|]. repeat split; auto.
  symmetry. apply Z.mod_small. now apply little_range.
Qed.

(* put *)
Lemma upd_mid {A} (pre : list A) b buf x : upd (pre ++ b :: buf) (length pre) x = (pre ++ [x]) ++ buf.
Proof. induction pre as [|p pre IH]; cbn; auto. now rewrite IH. Qed.
Lemma land_ff z : Z.land z 0xff = z mod 256. Proof. exact (land_255 z). Qed.

Lemma putle_loop_spec r : forall pre buf val, putle_loop r (length pre) (pre ++ buf) val =
  if (r <=? length buf)%nat then Done (pre ++ le_image r val ++ skipn r buf) else Abort.
Proof.
  induction r as [|r IH]; intros pre buf val; cbn [putle_loop]; [reflexivity|].
  destruct buf as [|b buf].
  - rewrite app_nil_r. destruct (Nat.ltb_spec (length pre) (length pre)); [lia|]. reflexivity.
  - rewrite app_length. cbn [length]. destruct (Nat.ltb_spec (length pre) (length pre + S (length buf))); [|lia].
    rewrite upd_mid. replace (S (length pre)) with (length (pre ++ [Z.land val 255])) by (rewrite app_length; cbn; lia).
    rewrite IH, land_ff, Z.shiftr_div_pow2 by lia. change (2 ^ 8) with 256. rewrite le_image_S.
    destruct (Nat.leb_spec r (length buf)), (Nat.leb_spec (S r) (S (length buf))); try lia; auto.
    cbn [skipn app]. rewrite <- app_assoc. reflexivity.
Qed.
Lemma putle_spec n buf val : putle buf val n = if (n <=? length buf)%nat then Done (le_image n val ++ skipn n buf) else Abort.
Proof. exact (putle_loop_spec n [] buf val). Qed.

Lemma putbe_loop_spec r : forall n pre buf val, (length pre + r = n)%nat -> putbe_loop r (length pre) n (pre ++ buf) val =
  if (r <=? length buf)%nat then Done (pre ++ rev (le_image r val) ++ skipn r buf) else Abort.
Proof.
  induction r as [|r IH]; intros n pre buf val Hn; cbn [putbe_loop]; [reflexivity|].
  destruct buf as [|b buf].
  - rewrite app_nil_r. destruct (Nat.ltb_spec (length pre) (length pre)); [lia|]. reflexivity.
  - rewrite app_length. cbn [length]. destruct (Nat.ltb_spec (length pre) (length pre + S (length buf))); [|lia].
    rewrite upd_mid. set (x := Z.land _ _). replace (S (length pre)) with (length (pre ++ [x])) by (rewrite app_length; cbn; lia).
    rewrite IH by (rewrite app_length; cbn; lia). rewrite le_image_snoc, rev_app_distr. cbn [rev app].
    assert (x = val / 256 ^ Z.of_nat r mod 256) as ->.
    { unfold x. rewrite land_ff, Z.shiftr_div_pow2 by lia. replace (n - length pre - 1)%nat with r by lia. now rewrite p256. }
    destruct (Nat.leb_spec r (length buf)), (Nat.leb_spec (S r) (S (length buf))); try lia; auto.
    cbn [skipn]. rewrite <- !app_assoc. reflexivity.
Qed.
Lemma putbe_spec n buf val : putbe buf val n = if (n <=? length buf)%nat then Done (rev (le_image n val) ++ skipn n buf) else Abort.
Proof. apply (putbe_loop_spec n n [] buf val). reflexivity. Qed.

(* get *)
Lemma cong_lor w a b c d : 0 <= w -> cong w a b -> cong w c d -> cong w (Z.lor a c) (Z.lor b d).
Proof. intros Hw; rewrite !cong_bits by auto. intros H1 H2 n Hn. rewrite !Z.lor_spec, H1, H2; auto. Qed.
Lemma cong_shiftl w a b k : 0 <= w -> 0 <= k -> cong w a b -> cong w (Z.shiftl a k) (Z.shiftl b k).
Proof. intros Hw Hk H. rewrite !Z.shiftl_mul_pow2 by auto. apply cong_mul; auto. apply cong_refl. Qed.

Fixpoint pureor (buf : list Z) (acc : Z) (terms : list (nat * nat)) : option Z :=
  match terms with
  | [] => Some acc
  | (i, k) :: terms => match nth_error buf i with None => None | Some b => pureor buf (Z.lor acc (Z.shiftl b (Z.of_nat k))) terms end
  end.
Lemma getor_pure t buf terms : 0 < w t -> forall acc acc', cast t acc = acc -> cong (w t) acc acc' ->
  match pureor buf acc' terms with
  | Some v => getor t buf acc terms = Done (cast t v)
  | None => getor t buf acc terms = Abort
  end.
Proof.
  intros Hw. induction terms as [|[i k] terms IH]; intros acc acc' Hc H; cbn [pureor getor].
  - f_equal. rewrite <- Hc. apply cast_eq; auto.
  - destruct (nth_error buf i) as [b|]; auto. apply IH; [now apply cast_idem|].
    eapply cong_trans; [now apply cast_cong|]. apply cong_lor; [lia|auto|].
    eapply cong_trans; [now apply cast_cong|]. apply cong_shiftl; [lia..|]. now apply cast_cong.
Qed.

Lemma lor_hi a b k : 0 <= b < 256 -> Z.lor (a * 2 ^ (Z.of_nat k + 8)) (Z.shiftl b (Z.of_nat k)) = (a * 256 + b) * 2 ^ Z.of_nat k.
Proof.
  intros Hb. rewrite Z.shiftl_mul_pow2 by lia. assert (P : 0 < 2 ^ Z.of_nat k) by (apply Z.pow_pos_nonneg; lia).
  rewrite lor_add; [|lia|].
  - rewrite Z.pow_add_r by lia. change (2 ^ 8) with 256. ring.
  - rewrite Z.pow_add_r by lia. change (2 ^ 8) with 256. nia.
Qed.
Lemma lor_lo a b k : 0 <= a < 2 ^ Z.of_nat k -> Z.lor a (Z.shiftl b (Z.of_nat k)) = a + b * 2 ^ Z.of_nat k.
Proof. intros Ha. rewrite Z.shiftl_mul_pow2 by lia. rewrite Z.lor_comm, lor_add; lia. Qed.

Definition le_terms (n : nat) : list (nat * nat) := map (fun i => (i, 8 * i)%nat) (seq 0 n).
Definition be_terms (n : nat) : list (nat * nat) := map (fun i => (i, 8 * (n - 1 - i))%nat) (seq 0 n).

Lemma pureor_le n : forall pre buf, Forall isbyte pre -> Forall isbyte buf -> (n <= length buf)%nat ->
  pureor (pre ++ buf) (little pre) (map (fun i => (i, 8 * i)%nat) (seq (length pre) n)) = Some (little (pre ++ firstn n buf)).
Proof.
  induction n as [|n IH]; intros pre buf Hp Hb Hn; cbn [seq map pureor firstn]; [now rewrite app_nil_r|].
  destruct buf as [|b buf]; [cbn in Hn; lia|]. inversion Hb; subst.
  rewrite nth_error_app2, Nat.sub_diag by lia. cbn [nth_error].
  rewrite lor_lo. 2:{ pose proof (little_range pre Hp) as R. rewrite p256 in R. now replace (Z.of_nat (8 * length pre)) with (8 * Z.of_nat (length pre)) by lia. }
  assert (E : little (pre ++ [b]) = little pre + b * 2 ^ Z.of_nat (8 * length pre)).
  { replace (Z.of_nat (8 * length pre)) with (8 * Z.of_nat (length pre)) by lia. rewrite <- p256. clear.
    induction pre as [|p pre IH]; cbn [app little length]; [cbn; lia|]. rewrite IH, p256_S. ring. }
  rewrite <- E. specialize (IH (pre ++ [b]) buf). rewrite app_length, Nat.add_comm, <- !app_assoc in IH. cbn [app length Nat.add] in IH.
  cbn [firstn]. rewrite IH; auto; [|cbn in Hn; lia]. apply Forall_app; split; auto.
Qed.
Lemma big_snoc l b : big (l ++ [b]) = big l * 256 + b.
Proof. unfold big. rewrite rev_app_distr. cbn [rev app little]. lia. Qed.
Lemma pureor_be n : forall m pre buf, (length pre + n = m)%nat -> Forall isbyte pre -> Forall isbyte buf -> (n <= length buf)%nat ->
  pureor (pre ++ buf) (big pre * 2 ^ (8 * Z.of_nat n)) (map (fun i => (i, 8 * (m - 1 - i))%nat) (seq (length pre) n)) = Some (big (pre ++ firstn n buf)).
Proof.
  induction n as [|n IH]; intros m pre buf Hm Hp Hb Hn; cbn [seq map pureor firstn]; [rewrite app_nil_r; cbn; f_equal; lia|].
  destruct buf as [|b buf]; [cbn in Hn; lia|]. inversion Hb; subst.
  rewrite nth_error_app2, Nat.sub_diag by lia. cbn [nth_error].
  replace (8 * (length pre + S n - 1 - length pre))%nat with (8 * n)%nat by lia.
  replace (8 * Z.of_nat (S n)) with (Z.of_nat (8 * n) + 8) by lia. rewrite lor_hi by auto. rewrite <- big_snoc.
  replace (Z.of_nat (8 * n)) with (8 * Z.of_nat n) by lia.
  specialize (IH (length pre + S n)%nat (pre ++ [b]) buf). rewrite app_length, <- !app_assoc, Nat.add_comm in IH. cbn [app length Nat.add] in IH.
  cbn [firstn]. rewrite <- IH; auto; [|lia|apply Forall_app; auto|cbn in Hn; lia].
  replace (length pre + 1)%nat with (S (length pre)) by lia. reflexivity.
Qed.
Lemma pureor_short n : forall terms buf acc, In (n, 0%nat) terms \/ (exists k, In (n, k) terms) -> (length buf <= n)%nat -> pureor buf acc terms = None.
Proof.
  intros terms. induction terms as [|[i k] terms IH]; intros buf acc H Hn; cbn [pureor].
  - exfalso. destruct H as [[]|[? []]].
  - destruct (nth_error buf i) as [b|] eqn:E; auto. apply IH; auto. right.
    assert (i < length buf)%nat by (apply nth_error_Some; congruence).
    destruct H as [[H|H]|[k' [H|H]]]; eauto; injection H; intros; lia.
Qed.

Lemma getle_spec t n buf : 0 < w t -> Forall isbyte buf ->
  getor t buf 0 (le_terms n) = if (n <=? length buf)%nat then Done (cast t (little (firstn n buf))) else Abort.
Proof.
  intros Hw Hb. assert (C : cast t 0 = 0) by (unfold cast; destruct (sgn t); [apply swrap_small|apply uwrap_small]; [lia| |]; pose proof (pow2_pos (w t - 1) ltac:(lia)); pose proof (pow2_pos (w t) ltac:(lia)); lia).
  pose proof (getor_pure t buf (le_terms n) Hw 0 0 C (cong_refl _ _)) as G.
  destruct (Nat.leb_spec n (length buf)) as [H|H].
  - unfold le_terms in *. pose proof (pureor_le n [] buf (Forall_nil _) Hb H) as Q. cbn [app length little] in Q. now rewrite Q in G.
  - rewrite (pureor_short (length buf)) in G; auto. right. exists (8 * length buf)%nat. unfold le_terms. apply in_map_iff. exists (length buf). split; auto. apply in_seq. lia.
Qed.
Lemma getbe_spec t n buf : 0 < w t -> Forall isbyte buf ->
  getor t buf 0 (be_terms n) = if (n <=? length buf)%nat then Done (cast t (big (firstn n buf))) else Abort.
Proof.
  intros Hw Hb. assert (C : cast t 0 = 0) by (unfold cast; destruct (sgn t); [apply swrap_small|apply uwrap_small]; [lia| |]; pose proof (pow2_pos (w t - 1) ltac:(lia)); pose proof (pow2_pos (w t) ltac:(lia)); lia).
  pose proof (getor_pure t buf (be_terms n) Hw 0 0 C (cong_refl _ _)) as G.
  destruct (Nat.leb_spec n (length buf)) as [H|H].
  - unfold be_terms in *. pose proof (pureor_be n n [] buf eq_refl (Forall_nil _) Hb H) as Q. cbn [app length] in Q. change (big []) with 0 in Q. rewrite Z.mul_0_l in Q. now rewrite Q in G.
  - rewrite (pureor_short (length buf)) in G; auto. right. exists (8 * (n - 1 - length buf))%nat. unfold be_terms. apply in_map_iff. exists (length buf). split; auto. apply in_seq. lia.
Qed.

(* hosttonet *)
Lemma little_snoc l b : little (l ++ [b]) = little l + b * 256 ^ Z.of_nat (length l).
Proof. induction l as [|c l IH]; cbn [app little length]; [cbn; lia|]. rewrite IH, p256_S. ring. Qed.
Lemma swap_loop_spec t r : 8 <= w t -> forall ret v, cong (w t) (swap_loop t r ret v) (ret * 256 ^ Z.of_nat r + big (le_image r v)).
Proof.
  intros Hw. induction r as [|r IH]; intros ret v; cbn [swap_loop].
  - unfold big; cbn. replace (ret * 1 + 0) with ret by lia. apply cong_refl.
  - eapply cong_trans; [apply IH|]. rewrite Z.shiftr_div_pow2 by lia. change (2 ^ 8) with 256. rewrite le_image_S.
    assert (E : big (v mod 256 :: le_image r (v / 256)) = v mod 256 * 256 ^ Z.of_nat r + big (le_image r (v / 256))).
    { unfold big. cbn [rev]. rewrite little_snoc, rev_length, le_image_length. lia. }
    rewrite E, p256_S. eapply cong_trans.
    + apply cong_add; [lia| |apply cong_refl]. apply cong_mul; [lia| |apply cong_refl].
      eapply cong_trans; [apply cast_cong; lia|]. rewrite land_ff. eapply cong_trans.
      * apply (cong_lor (w t) _ (Z.shiftl ret 8) _ (v mod 256)); [lia|apply cast_cong; lia|apply cong_refl].
      * rewrite Z.shiftl_mul_pow2, lor_add by lia. change (2 ^ 8) with 256. apply cong_refl.
    + match goal with |- cong _ ?a ?b => replace a with b by ring end. apply cong_refl.
Qed.
Lemma swap_loop_cast t r : 0 < w t -> forall ret v, cast t ret = ret -> cast t (swap_loop t r ret v) = swap_loop t r ret v.
Proof. intros Hw. induction r as [|r IH]; intros ret v H; cbn [swap_loop]; auto. apply IH. now apply cast_idem. Qed.

Lemma cast_0 t : 0 < w t -> cast t 0 = 0.
Proof.
  intros Hw. unfold cast; destruct (sgn t); [apply swrap_small|apply uwrap_small]; [lia| |]; pose proof (pow2_pos (w t - 1) ltac:(lia)); pose proof (pow2_pos (w t) ltac:(lia)); lia.
Qed.
Lemma hosttonet_spec t n v : (0 < n)%nat -> w t = 8 * Z.of_nat n -> hosttonet t v = cast t (big (le_image n v)).
Proof.
  intros Hn Hw. unfold hosttonet. rewrite Hw. replace (Z.to_nat (8 * Z.of_nat n / 8)) with n by lia.
  rewrite <- (swap_loop_cast t n) by (try apply cast_0; lia). apply cast_eq; [lia|].
  pose proof (swap_loop_spec t n ltac:(lia) 0 v) as H. now rewrite Z.mul_0_l in H.
Qed.
Lemma hosttonet_involutive t n v : (0 < n)%nat -> w t = 8 * Z.of_nat n -> hosttonet t (hosttonet t v) = cast t v.
Proof.
  intros Hn Hw. rewrite !(hosttonet_spec t n) by auto. apply cast_eq; [lia|].
  rewrite (le_image_mod n (cast t (big (le_image n v))) (big (le_image n v))) by (rewrite <- Hw; apply cast_cong; lia).
  unfold big at 2. rewrite <- (le_image_length n v) at 1. rewrite <- rev_length. rewrite le_image_little by (apply Forall_rev, le_image_bytes).
  unfold big. rewrite rev_involutive, little_le_image, p256, <- Hw. apply uwrap_cong. lia.
Qed.
