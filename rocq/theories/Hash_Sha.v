(* The step functions of SHA-1 and SHA-2 are the compression functions of FIPS 180-4 (for Hash_Props). *)
From Verif Require Import Base ListX Hash_Spec Hash_Model Hash_Steps.
From Coq Require Import NArith.
Open Scope N_scope.

Lemma sum5 : forall w a b c d e, sum w [a; b; c; d; e] = (a + b + c + d + e) mod 2 ^ w.
Proof. intros. unfold sum, wadd. cbn [fold_left]. rewrite !N.add_0_l. nomod. reflexivity. Qed.
Lemma sum2 : forall w a b, sum w [a; b] = (a + b) mod 2 ^ w.
Proof. intros. unfold sum, wadd. cbn [fold_left]. rewrite !N.add_0_l. nomod. reflexivity. Qed.

(* ---- SHA-2 ---- *)
  Lemma sched_S : forall w (s0 s1 : N -> N) n W v2 v7 v15 v16, nth (length W - 2) W 0 = v2 -> nth (length W - 7) W 0 = v7 ->
    nth (length W - 15) W 0 = v15 -> nth (length W - 16) W 0 = v16 ->
    sha2_schedule w s0 s1 (S n) W = sha2_schedule w s0 s1 n (W ++ [sum w [s1 v2; v7; s0 v15; v16]]).
  Proof. intros w s0 s1 n W v2 v7 v15 v16 <- <- <- <-. reflexivity. Qed.
  Lemma sched_r : forall w (s0 s1 : N -> N) {A} (f : N -> A) r v2 v7 v15 v16 a b, a = s0 v15 -> b = s1 v2 ->
    f (sum w [s1 v2; v7; s0 v15; v16]) = r -> bnd (add w (add w (add w v16 v7) a) b) f = r.
  Proof.
    intros w s0 s1 A f r v2 v7 v15 v16 a b -> -> H. unfold bnd. rewrite <- H. f_equal. rewrite sum4. unfold add. nomod. f_equal. lia.
  Qed.
  Lemma round_r : forall w (S0 S1 : N -> N) {A} (f : N -> N -> A) r a b c d e g h i k k' x S1c S0c C M,
    S1c = S1 e -> S0c = S0 a -> C mod 2 ^ w = ch w e g h mod 2 ^ w -> M = maj a b c -> k' = k ->
    f (wadd w d (sum w [i; S1 e; ch w e g h; k; x])) (wadd w (sum w [i; S1 e; ch w e g h; k; x]) (sum w [S0 a; maj a b c])) = r ->
    bnd (add w i (add w (add w (add w S1c C) k') x)) (fun i => bnd (add w d i) (fun d => bnd (add w i (add w S0c M)) (fun i => f d i))) = r.
  Proof.
    intros w S0 S1 A f r a b c d e g h i k k' x S1c S0c C M -> -> HC -> -> H. unfold bnd. rewrite <- H. rewrite (add_r _ (S1 e) _ _ HC).
    replace (add w i (add w (add w (add w (S1 e) (ch w e g h)) k) x)) with (sum w [i; S1 e; ch w e g h; k; x]).
    2: { rewrite sum5. unfold add. nomod. try reflexivity; f_equal; lia. }
    f_equal. unfold wadd, add. rewrite sum2. reflexivity.
  Qed.
  Lemma round_cons : forall w (S0 S1 : N -> N) k x l a b c d e f g h, fold_left (sha2_round w S0 S1) ((k, x) :: l) (a, b, c, d, e, f, g, h)
    = fold_left (sha2_round w S0 S1) l (wadd w (sum w [h; S1 e; ch w e f g; k; x]) (sum w [S0 a; maj a b c]), a, b, c,
        wadd w d (sum w [h; S1 e; ch w e f g; k; x]), e, f, g).
  Proof. reflexivity. Qed.
Ltac rots := unfold S0_32, S1_32, s0_32, s1_32, S0_64, S1_64, s0_64, s1_64; rewrite ?rot_or by reflexivity;
  repeat (f_equal; try (apply rot_or; reflexivity)).
Lemma S0_32_ok : forall a, N.lxor (N.lxor (N.lor (shl 32 a 30) (N.shiftr a 2)) (N.lor (shl 32 a 19) (N.shiftr a 13))) (N.lor (shl 32 a 10) (N.shiftr a 22)) = S0_32 a.
Proof. intros. unfold S0_32. rewrite (rot_or 32 2), (rot_or 32 13), (rot_or 32 22) by reflexivity. reflexivity. Qed.
Lemma S1_32_ok : forall a, N.lxor (N.lxor (N.lor (shl 32 a 26) (N.shiftr a 6)) (N.lor (shl 32 a 21) (N.shiftr a 11))) (N.lor (shl 32 a 7) (N.shiftr a 25)) = S1_32 a.
Proof. intros. unfold S1_32. rewrite (rot_or 32 6), (rot_or 32 11), (rot_or 32 25) by reflexivity. reflexivity. Qed.
Lemma s0_32_ok : forall a, N.lxor (N.lxor (N.lor (shl 32 a 25) (N.shiftr a 7)) (N.lor (shl 32 a 14) (N.shiftr a 18))) (N.shiftr a 3) = s0_32 a.
Proof. intros. unfold s0_32. rewrite (rot_or 32 7), (rot_or 32 18) by reflexivity. reflexivity. Qed.
Lemma s1_32_ok : forall a, N.lxor (N.lxor (N.lor (shl 32 a 15) (N.shiftr a 17)) (N.lor (shl 32 a 13) (N.shiftr a 19))) (N.shiftr a 10) = s1_32 a.
Proof. intros. unfold s1_32. rewrite (rot_or 32 17), (rot_or 32 19) by reflexivity. reflexivity. Qed.
Lemma S0_64_ok : forall a, N.lxor (N.lxor (N.lor (shl 64 a 36) (N.shiftr a 28)) (N.lor (shl 64 a 30) (N.shiftr a 34))) (N.lor (shl 64 a 25) (N.shiftr a 39)) = S0_64 a.
Proof. intros. unfold S0_64. rewrite (rot_or 64 28), (rot_or 64 34), (rot_or 64 39) by reflexivity. reflexivity. Qed.
Lemma S1_64_ok : forall a, N.lxor (N.lxor (N.lor (shl 64 a 50) (N.shiftr a 14)) (N.lor (shl 64 a 46) (N.shiftr a 18))) (N.lor (shl 64 a 23) (N.shiftr a 41)) = S1_64 a.
Proof. intros. unfold S1_64. rewrite (rot_or 64 14), (rot_or 64 18), (rot_or 64 41) by reflexivity. reflexivity. Qed.
Lemma s0_64_ok : forall a, N.lxor (N.lxor (N.lor (shl 64 a 63) (N.shiftr a 1)) (N.lor (shl 64 a 56) (N.shiftr a 8))) (N.shiftr a 7) = s0_64 a.
Proof. intros. unfold s0_64. rewrite (rot_or 64 1), (rot_or 64 8) by reflexivity. reflexivity. Qed.
Lemma s1_64_ok : forall a, N.lxor (N.lxor (N.lor (shl 64 a 45) (N.shiftr a 19)) (N.lor (shl 64 a 3) (N.shiftr a 61))) (N.shiftr a 6) = s1_64 a.
Proof. intros. unfold s1_64. rewrite (rot_or 64 19), (rot_or 64 61) by reflexivity. reflexivity. Qed.

Ltac sched_step s0ok s1ok :=
  lazymatch goal with
  | |- context [sha2_schedule ?w ?s0 ?s1 (S ?n) ?W] =>
      let v2 := eval cbn [length nth Nat.sub] in (nth (length W - 2) W 0) in
      let v7 := eval cbn [length nth Nat.sub] in (nth (length W - 7) W 0) in
      let v15 := eval cbn [length nth Nat.sub] in (nth (length W - 15) W 0) in
      let v16 := eval cbn [length nth Nat.sub] in (nth (length W - 16) W 0) in
      rewrite (sched_S w s0 s1 n W v2 v7 v15 v16 eq_refl eq_refl eq_refl eq_refl);
      apply (sched_r w s0 s1 _ _ v2 v7 v15 v16 _ _ (s0ok v15) (s1ok v2));
      generalize (sum w [s1 v2; v7; s0 v15; v16]); cbn [app]; let y := fresh "y" in intros y; cbv beta
  end.
Ltac round_step S0ok S1ok :=
  lazymatch goal with
  | |- context [fold_left (sha2_round ?w ?S0 ?S1) ((?k, ?x) :: ?l) (?a, ?b, ?c, ?d, ?e, ?f, ?g, ?h)] =>
      rewrite (round_cons w S0 S1 k x l a b c d e f g h);
      apply (round_r w S0 S1 _ _ a b c d e f g h k k x _ _ _ _ (S1ok e) (S0ok a) (ch_mod w e f g) (maj_eq a b c) eq_refl);
      generalize (wadd w d (sum w [h; S1 e; ch w e f g; k; x])), (wadd w (sum w [h; S1 e; ch w e f g; k; x]) (sum w [S0 a; maj a b c]));
      let y := fresh "d" in let z := fresh "z" in intros y z; cbv beta
  end.
Lemma step_sha256_ok : forall st blk, Forall is_byte blk -> length blk = 64%nat -> step_sha256 st blk = compress256 st blk.
Proof.
  intros st blk F L. unfold compress256, sha2_compress. change (N.to_nat (32 / 8)) with 4%nat.
  rewrite (words16 4 num_be unpack_sha256 blk unpack_be4 F) by lia.
  cbn [seq map Nat.mul Nat.add]. destruct st as [[[[[[[a b] c] d] e] f] g] h]. unfold step_sha256. do 16 take1.
  abstract_words unpack_sha256. change (64 - 16)%nat with 48%nat.
  do 48 sched_step s0_32_ok s1_32_ok. rewrite K256_eq. cbn [sha2_schedule combine].
  do 64 round_step S0_32_ok S1_32_ok. reflexivity.
Qed.
