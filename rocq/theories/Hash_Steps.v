(* The step functions are the compression functions of the standards (for Hash_Props). *)
From Verif Require Import Base ListX Hash_Spec Hash_Model.
From Coq Require Import NArith.
Open Scope N_scope.

(* ---- the constants in the code are those of the standards ---- *)
Lemma md5_table_eq : md5_table = [0xd76aa478; 0xe8c7b756; 0x242070db; 0xc1bdceee; 0xf57c0faf; 0x4787c62a; 0xa8304613; 0xfd469501; 0x698098d8; 0x8b44f7af; 0xffff5bb1; 0x895cd7be; 0x6b901122; 0xfd987193; 0xa679438e; 0x49b40821; 0xf61e2562; 0xc040b340; 0x265e5a51; 0xe9b6c7aa; 0xd62f105d; 0x02441453; 0xd8a1e681; 0xe7d3fbc8; 0x21e1cde6; 0xc33707d6; 0xf4d50d87; 0x455a14ed; 0xa9e3e905; 0xfcefa3f8; 0x676f02d9; 0x8d2a4c8a; 0xfffa3942; 0x8771f681; 0x6d9d6122; 0xfde5380c; 0xa4beea44; 0x4bdecfa9; 0xf6bb4b60; 0xbebfbc70; 0x289b7ec6; 0xeaa127fa; 0xd4ef3085; 0x04881d05; 0xd9d4d039; 0xe6db99e5; 0x1fa27cf8; 0xc4ac5665; 0xf4292244; 0x432aff97; 0xab9423a7; 0xfc93a039; 0x655b59c3; 0x8f0ccc92; 0xffeff47d; 0x85845dd1; 0x6fa87e4f; 0xfe2ce6e0; 0xa3014314; 0x4e0811a1; 0xf7537e82; 0xbd3af235; 0x2ad7d2bb; 0xeb86d391].
Proof. vm_compute. reflexivity. Qed.
Lemma K256_eq : K256 = [0x428a2f98; 0x71374491; 0xb5c0fbcf; 0xe9b5dba5; 0x3956c25b; 0x59f111f1; 0x923f82a4; 0xab1c5ed5; 0xd807aa98; 0x12835b01; 0x243185be; 0x550c7dc3; 0x72be5d74; 0x80deb1fe; 0x9bdc06a7; 0xc19bf174; 0xe49b69c1; 0xefbe4786; 0x0fc19dc6; 0x240ca1cc; 0x2de92c6f; 0x4a7484aa; 0x5cb0a9dc; 0x76f988da; 0x983e5152; 0xa831c66d; 0xb00327c8; 0xbf597fc7; 0xc6e00bf3; 0xd5a79147; 0x06ca6351; 0x14292967; 0x27b70a85; 0x2e1b2138; 0x4d2c6dfc; 0x53380d13; 0x650a7354; 0x766a0abb; 0x81c2c92e; 0x92722c85; 0xa2bfe8a1; 0xa81a664b; 0xc24b8b70; 0xc76c51a3; 0xd192e819; 0xd6990624; 0xf40e3585; 0x106aa070; 0x19a4c116; 0x1e376c08; 0x2748774c; 0x34b0bcb5; 0x391c0cb3; 0x4ed8aa4a; 0x5b9cca4f; 0x682e6ff3; 0x748f82ee; 0x78a5636f; 0x84c87814; 0x8cc70208; 0x90befffa; 0xa4506ceb; 0xbef9a3f7; 0xc67178f2].
Proof. vm_compute. reflexivity. Qed.
Lemma K512_eq : K512 = [0x428a2f98d728ae22; 0x7137449123ef65cd; 0xb5c0fbcfec4d3b2f; 0xe9b5dba58189dbbc; 0x3956c25bf348b538; 0x59f111f1b605d019; 0x923f82a4af194f9b; 0xab1c5ed5da6d8118; 0xd807aa98a3030242; 0x12835b0145706fbe; 0x243185be4ee4b28c; 0x550c7dc3d5ffb4e2; 0x72be5d74f27b896f; 0x80deb1fe3b1696b1; 0x9bdc06a725c71235; 0xc19bf174cf692694; 0xe49b69c19ef14ad2; 0xefbe4786384f25e3; 0x0fc19dc68b8cd5b5; 0x240ca1cc77ac9c65; 0x2de92c6f592b0275; 0x4a7484aa6ea6e483; 0x5cb0a9dcbd41fbd4; 0x76f988da831153b5; 0x983e5152ee66dfab; 0xa831c66d2db43210; 0xb00327c898fb213f; 0xbf597fc7beef0ee4; 0xc6e00bf33da88fc2; 0xd5a79147930aa725; 0x06ca6351e003826f; 0x142929670a0e6e70; 0x27b70a8546d22ffc; 0x2e1b21385c26c926; 0x4d2c6dfc5ac42aed; 0x53380d139d95b3df; 0x650a73548baf63de; 0x766a0abb3c77b2a8; 0x81c2c92e47edaee6; 0x92722c851482353b; 0xa2bfe8a14cf10364; 0xa81a664bbc423001; 0xc24b8b70d0f89791; 0xc76c51a30654be30; 0xd192e819d6ef5218; 0xd69906245565a910; 0xf40e35855771202a; 0x106aa07032bbd1b8; 0x19a4c116b8d2d0c8; 0x1e376c085141ab53; 0x2748774cdf8eeb99; 0x34b0bcb5e19b48a8; 0x391c0cb3c5c95a63; 0x4ed8aa4ae3418acb; 0x5b9cca4f7763e373; 0x682e6ff3d6b2b8a3; 0x748f82ee5defb2fc; 0x78a5636f43172f60; 0x84c87814a1f0ab72; 0x8cc702081a6439ec; 0x90befffa23631e28; 0xa4506cebde82bde9; 0xbef9a3f7b2c67915; 0xc67178f2e372532b; 0xca273eceea26619c; 0xd186b8c721c0c207; 0xeada7dd6cde0eb1e; 0xf57d4f7fee6ed178; 0x06f067aa72176fba; 0x0a637dc5a2c898a6; 0x113f9804bef90dae; 0x1b710b35131c471b; 0x28db77f523047d84; 0x32caab7b40c72493; 0x3c9ebe0a15c9bebc; 0x431d67c49c100d4c; 0x4cc5d4becb3e42b6; 0x597f299cfc657e2a; 0x5fcb6fab3ad6faec; 0x6c44198c4a475817].
Proof. vm_compute. reflexivity. Qed.

Lemma Forall_skipn {A} (P : A -> Prop) n l : Forall P l -> Forall P (skipn n l).
Proof. rewrite !Forall_forall. intros H y Hy. apply H. rewrite <- (firstn_skipn n l). apply in_or_app. right; exact Hy. Qed.
Lemma Forall_firstn {A} (P : A -> Prop) n l : Forall P l -> Forall P (firstn n l).
Proof. rewrite !Forall_forall. intros H y Hy. apply H. rewrite <- (firstn_skipn n l). apply in_or_app. left; exact Hy. Qed.
(* ---- words ---- *)
Lemma mod_bits : forall w a b, (forall i, i < w -> N.testbit a i = N.testbit b i) -> a mod 2 ^ w = b mod 2 ^ w.
Proof.
  intros w a b H. apply N.bits_inj. intros i. destruct (N.lt_ge_cases i w) as [L | L].
  - rewrite !N.mod_pow2_bits_low by exact L. apply H, L.
  - rewrite !N.mod_pow2_bits_high by exact L. reflexivity.
Qed.
Lemma add_l : forall w a a' b, a mod 2 ^ w = a' mod 2 ^ w -> add w a b = add w a' b.
Proof. intros. unfold add. rewrite (N.add_mod a), (N.add_mod a'), H by (apply N.pow_nonzero; discriminate). reflexivity. Qed.
Lemma add_r : forall w a b b', b mod 2 ^ w = b' mod 2 ^ w -> add w a b = add w a b'.
Proof. intros. unfold add. rewrite (N.add_mod a b), (N.add_mod a b'), H by (apply N.pow_nonzero; discriminate). reflexivity. Qed.
Lemma add_mod_r : forall w a b, (a + b mod 2 ^ w) mod 2 ^ w = (a + b) mod 2 ^ w.
Proof. intros. apply N.add_mod_idemp_r, N.pow_nonzero. discriminate. Qed.
Lemma add_mod_l : forall w a b, (a mod 2 ^ w + b) mod 2 ^ w = (a + b) mod 2 ^ w.
Proof. intros. apply N.add_mod_idemp_l, N.pow_nonzero. discriminate. Qed.
Lemma add_mod_m : forall w a b c, (a + (b mod 2 ^ w + c)) mod 2 ^ w = (a + (b + c)) mod 2 ^ w.
Proof. intros. rewrite <- add_mod_r, add_mod_l, add_mod_r. reflexivity. Qed.
Ltac nomod := repeat first [ rewrite add_mod_l | rewrite add_mod_r | rewrite add_mod_m | rewrite <- N.add_assoc ].
Ltac bits := intros; apply mod_bits; intros i Hi; unfold ch, maj, parity, nt;
  repeat (rewrite ?N.lxor_spec, ?N.land_spec, ?N.lor_spec, ?N.lnot_spec_low by exact Hi);
  repeat match goal with |- context [N.testbit ?v i] => destruct (N.testbit v i) end; reflexivity.
Ltac bits' := intros; apply N.bits_inj; intros i; unfold maj;
  rewrite ?N.lxor_spec, ?N.land_spec, ?N.lor_spec, ?N.lxor_spec, ?N.land_spec, ?N.lor_spec, ?N.land_spec;
  repeat match goal with |- context [N.testbit ?v i] => destruct (N.testbit v i) end; reflexivity.
Lemma ch_mod : forall w a b c, N.lxor c (N.land a (N.lxor b c)) mod 2 ^ w = ch w a b c mod 2 ^ w.
Proof. bits. Qed.
Lemma maj_eq : forall a b c, N.lor (N.land a (N.lor b c)) (N.land b c) = maj a b c.
Proof. bits'. Qed.
Lemma f0_mod : forall b c d, N.lxor d (N.land b (N.lxor c d)) mod 2 ^ 32 = md5_f 0 b c d mod 2 ^ 32.
Proof. unfold md5_f. bits. Qed.
Lemma f1_mod : forall b c d, N.lxor c (N.land d (N.lxor b c)) mod 2 ^ 32 = md5_f 1 b c d mod 2 ^ 32.
Proof. unfold md5_f. bits. Qed.
Lemma rot_or : forall w n m a, m = w - n -> N.lor (shl w a m) (N.shiftr a n) = rotr w n a.
Proof. intros w n m a ->. unfold rotr, shl. apply N.lor_comm. Qed.

(* ---- bytes to words ---- *)
Lemma lor_low : forall h l k, l < 2 ^ k -> N.lor (h * 2 ^ k) l = h * 2 ^ k + l.
Proof.
  intros h l k H. assert (E : N.land (h * 2 ^ k) l = 0).
  { apply N.bits_inj_0. intros i. rewrite N.land_spec. destruct (N.lt_ge_cases i k) as [L | L].
    - rewrite N.mul_pow2_bits_low by exact L. reflexivity.
    - rewrite <- (N.mod_small l (2 ^ k)) by exact H. rewrite N.mod_pow2_bits_high by exact L. apply Bool.andb_false_r. }
  rewrite N.add_nocarry_lxor by exact E. symmetry. apply N.lxor_lor, E.
Qed.
Lemma shl_byte : forall w b n, b < 256 -> n + 8 <= w -> shl w b n = b * 2 ^ n.
Proof.
  intros w b n H L. unfold shl. rewrite N.shiftl_mul_pow2. apply N.mod_small.
  apply N.lt_le_trans with (2 ^ 8 * 2 ^ n); [ apply N.mul_lt_mono_pos_r; [ apply N.neq_0_lt_0, N.pow_nonzero; discriminate | exact H ] | ].
  rewrite <- N.pow_add_r. apply N.pow_le_mono_r; lia.
Qed.
Lemma unpack_le_ok : forall a b c d, is_byte a -> is_byte b -> is_byte c -> is_byte d -> unpack_md5 [a; b; c; d] = num_le [a; b; c; d].
Proof.
  unfold is_byte, unpack_md5, num_le, idx; cbn [nth fold_right]; intros a b c d Ha Hb Hc Hd.
  rewrite !shl_byte by (assumption || (compute; discriminate)). rewrite N.lor_0_l, N.pow_0_r, N.mul_1_r.
  rewrite (N.lor_comm a), lor_low by (change (2 ^ 8) with 256; lia).
  rewrite (N.lor_comm _ (c * _)), lor_low by (change (2 ^ 16) with 65536; change (2 ^ 8) with 256; lia).
  rewrite (N.lor_comm _ (d * _)), lor_low by (change (2 ^ 24) with 16777216; change (2 ^ 16) with 65536; change (2 ^ 8) with 256; lia).
  change (2 ^ 24) with 16777216; change (2 ^ 16) with 65536; change (2 ^ 8) with 256. lia.
Qed.
Lemma unpack_be_ok : forall a b c d, is_byte a -> is_byte b -> is_byte c -> is_byte d -> unpack_sha256 [a; b; c; d] = num_be [a; b; c; d].
Proof.
  unfold is_byte, unpack_sha256, num_be, idx; cbn [nth fold_left]; intros a b c d Ha Hb Hc Hd.
  rewrite !shl_byte by (assumption || (compute; discriminate)). rewrite N.lor_0_l, N.pow_0_r, N.mul_1_r.
  rewrite lor_low by (change (2 ^ 24) with 16777216; change (2 ^ 16) with 65536; lia).
  replace (a * 2 ^ 24 + b * 2 ^ 16) with ((a * 256 + b) * 2 ^ 16) by (change (2 ^ 24) with 16777216; change (2 ^ 16) with 65536; lia).
  rewrite lor_low by (change (2 ^ 16) with 65536; change (2 ^ 8) with 256; lia).
  replace ((a * 256 + b) * 2 ^ 16 + c * 2 ^ 8) with (((a * 256 + b) * 256 + c) * 2 ^ 8) by (change (2 ^ 16) with 65536; change (2 ^ 8) with 256; lia).
  rewrite lor_low by (change (2 ^ 8) with 256; lia). change (2 ^ 8) with 256. lia.
Qed.
Ltac p64 := change (2 ^ 56) with 72057594037927936 in *; change (2 ^ 48) with 281474976710656 in *; change (2 ^ 40) with 1099511627776 in *;
  change (2 ^ 32) with 4294967296 in *; change (2 ^ 24) with 16777216 in *; change (2 ^ 16) with 65536 in *; change (2 ^ 8) with 256 in *.
Lemma unpack_be8_ok : forall a b c d e f g h, is_byte a -> is_byte b -> is_byte c -> is_byte d -> is_byte e -> is_byte f -> is_byte g -> is_byte h ->
  unpack_sha512 [a; b; c; d; e; f; g; h] = num_be [a; b; c; d; e; f; g; h].
Proof.
  unfold is_byte, unpack_sha512, num_be, idx; cbn [nth fold_left]; intros a b c d e f g h Ha Hb Hc Hd He Hf Hg Hh.
  rewrite !shl_byte by (assumption || (compute; discriminate)). rewrite N.lor_0_l, N.pow_0_r, N.mul_1_r.
  rewrite lor_low by (p64; lia).
  replace (a * 2 ^ 56 + b * 2 ^ 48) with ((a * 256 + b) * 2 ^ 48) by (p64; lia). set (v1 := a * 256 + b).
  rewrite lor_low by (p64; lia).
  replace (v1 * 2 ^ 48 + c * 2 ^ 40) with ((v1 * 256 + c) * 2 ^ 40) by (p64; lia). set (v2 := v1 * 256 + c).
  rewrite lor_low by (p64; lia).
  replace (v2 * 2 ^ 40 + d * 2 ^ 32) with ((v2 * 256 + d) * 2 ^ 32) by (p64; lia). set (v3 := v2 * 256 + d).
  rewrite lor_low by (p64; lia).
  replace (v3 * 2 ^ 32 + e * 2 ^ 24) with ((v3 * 256 + e) * 2 ^ 24) by (p64; lia). set (v4 := v3 * 256 + e).
  rewrite lor_low by (p64; lia).
  replace (v4 * 2 ^ 24 + f * 2 ^ 16) with ((v4 * 256 + f) * 2 ^ 16) by (p64; lia). set (v5 := v4 * 256 + f).
  rewrite lor_low by (p64; lia).
  replace (v5 * 2 ^ 16 + g * 2 ^ 8) with ((v5 * 256 + g) * 2 ^ 8) by (p64; lia). set (v6 := v5 * 256 + g).
  rewrite lor_low by (p64; lia). p64; lia.
Qed.
(* the i-th piece of k bytes *)
Lemma slice_words : forall k (num unp : list N -> N) blk i,
  (forall l, length l = k -> Forall is_byte l -> unp l = num l) -> Forall is_byte blk -> (i * k + k <= length blk)%nat ->
  unp (slice blk (i * k) (i * k + k)) = num (firstn k (skipn (i * k) blk)).
Proof.
  intros k num unp blk i H F L. unfold slice. replace (i * k + k - i * k)%nat with k by lia. apply H.
  - rewrite firstn_length, skipn_length. lia.
  - apply Forall_firstn, Forall_skipn, F.
Qed.
Lemma unpack_le4 : forall l, length l = 4%nat -> Forall is_byte l -> unpack_md5 l = num_le l.
Proof.
  intros l L F. destruct l as [ | a [ | b [ | c [ | d [ | ] ] ] ] ]; try discriminate L.
  inversion F as [ | ? ? ? F1 ]; subst. inversion F1 as [ | ? ? ? F2 ]; subst. inversion F2 as [ | ? ? ? F3 ]; subst. inversion F3; subst.
  apply unpack_le_ok; assumption.
Qed.
Lemma unpack_be4 : forall l, length l = 4%nat -> Forall is_byte l -> unpack_sha256 l = num_be l.
Proof.
  intros l L F. destruct l as [ | a [ | b [ | c [ | d [ | ] ] ] ] ]; try discriminate L.
  inversion F as [ | ? ? ? F1 ]; subst. inversion F1 as [ | ? ? ? F2 ]; subst. inversion F2 as [ | ? ? ? F3 ]; subst. inversion F3; subst.
  apply unpack_be_ok; assumption.
Qed.
Lemma unpack_be8 : forall l, length l = 8%nat -> Forall is_byte l -> unpack_sha512 l = num_be l.
Proof.
  intros l L F. destruct l as [ | a [ | b [ | c [ | d [ | e [ | f [ | g [ | h [ | ] ] ] ] ] ] ] ] ]; try discriminate L.
  inversion F as [ | ? ? ? F1 ]; subst. inversion F1 as [ | ? ? ? F2 ]; subst. inversion F2 as [ | ? ? ? F3 ]; subst. inversion F3 as [ | ? ? ? F4 ]; subst.
  inversion F4 as [ | ? ? ? F5 ]; subst. inversion F5 as [ | ? ? ? F6 ]; subst. inversion F6 as [ | ? ? ? F7 ]; subst. inversion F7; subst.
  apply unpack_be8_ok; assumption.
Qed.
Lemma words16 : forall k (num unp : list N -> N) blk,
  (forall l, length l = k -> Forall is_byte l -> unp l = num l) -> Forall is_byte blk -> (0 < k)%nat -> length blk = (16 * k)%nat ->
  map num (chunks k blk) = map (fun i => unp (slice blk (i * k) (i * k + k))) (seq 0 16).
Proof.
  intros k num unp blk H F P L. unfold chunks. rewrite L, Nat.div_mul by lia. rewrite map_map. apply map_ext_in. intros i Hi. apply in_seq in Hi.
  symmetry. apply slice_words; try assumption. rewrite L. nia.
Qed.

(* ---- MD5 ---- *)
Lemma sum4 : forall w a b c d, sum w [a; b; c; d] = (a + b + c + d) mod 2 ^ w.
Proof. intros. unfold sum, wadd. cbn [fold_left]. rewrite !N.add_0_l. nomod. reflexivity. Qed.
Lemma md5_r : forall (f : N -> N * N * N * N) F' F a b k v s s', F' mod 2 ^ 32 = F mod 2 ^ 32 -> s' = 32 - s ->
  bnd (add 32 a (add 32 (add 32 F' k) v)) (fun a => bnd (add 32 b (N.lor (shl 32 a s) (N.shiftr a s'))) f)
  = f (wadd 32 b (rotl 32 s (sum 32 [a; F; v; k]))).
Proof.
  intros f F' F a b k v s s' H ->. unfold bnd. f_equal. unfold wadd, rotl. unfold shl. fold (add 32 b (N.lor (N.shiftl (add 32 a (add 32 (add 32 F' k) v)) s mod 2 ^ 32) (N.shiftr (add 32 a (add 32 (add 32 F' k) v)) (32 - s)))).
  replace (add 32 a (add 32 (add 32 F' k) v)) with (sum 32 [a; F; v; k]); [ reflexivity | ].
  rewrite (add_l _ _ _ k H), sum4. unfold add. nomod. f_equal. lia.
Qed.
Lemma md5_r' : forall (f : N -> N * N * N * N) r F' F a b k v s s', F' mod 2 ^ 32 = F mod 2 ^ 32 -> s' = 32 - s ->
  f (wadd 32 b (rotl 32 s (sum 32 [a; F; v; k]))) = r ->
  bnd (add 32 a (add 32 (add 32 F' k) v)) (fun a => bnd (add 32 b (N.lor (shl 32 a s) (N.shiftr a s'))) f) = r.
Proof. intros f r F' F a b k v s s' H1 H2 H3. rewrite (md5_r f F' F) by assumption. exact H3. Qed.
Definition md5_op' (st : N * N * N * N) (o : nat * N * N * N) : N * N * N * N :=
  let '(a, b, c, d) := st in let '(r, v, s, t) := o in (d, wadd 32 b (rotl 32 s (sum 32 [a; md5_f r b c d; v; t])), b, c).
Lemma md5_ops_eq : forall X ops st, fold_left (md5_op X) ops st
  = fold_left md5_op' (map (fun '(r, j) => (r, nth (md5_k r j) X 0, md5_s r j, md5_t (16 * r + j + 1)%nat)) ops) st.
Proof.
  intros X ops. induction ops as [ | [r j] ops IH]; intros st; [ reflexivity | ]. cbn [map fold_left]. rewrite IH.
  destruct st as [[[a b] c] d]. reflexivity.
Qed.
Lemma md5_op'_cons : forall r v s t ops a b c d, fold_left md5_op' ((r, v, s, t) :: ops) (a, b, c, d)
  = fold_left md5_op' ops (d, wadd 32 b (rotl 32 s (sum 32 [a; md5_f r b c d; v; t])), b, c).
Proof. reflexivity. Qed.
Ltac md5_step :=
  lazymatch goal with
  | |- context [fold_left md5_op' ((?r, ?v, ?s, ?t) :: _) (?a, ?b, ?c, ?d)] =>
      rewrite md5_op'_cons;
      apply (md5_r' _ _ _ (md5_f r b c d) a b t v s); [ first [ reflexivity | apply f0_mod | apply f1_mod ] | reflexivity | ];
      generalize (wadd 32 b (rotl 32 s (sum 32 [a; md5_f r b c d; v; t])));
      let z := fresh "z" in intros z; cbv beta
  end.
Lemma bnd_eq : forall {A B} (e : A) (f : A -> B) r, f e = r -> bnd e f = r.
Proof. intros; assumption. Qed.
Ltac take1 := match goal with |- bnd ?e ?f = ?r => apply (bnd_eq e f r); cbv beta end.
Ltac abstract_words w :=
  repeat match goal with |- context [w ?e] => is_slice e; let z := fresh "x" in generalize (w e); intros z end
with is_slice e := lazymatch e with slice _ _ _ => idtac end.
Lemma step_md5_ok : forall st blk, Forall is_byte blk -> length blk = 64%nat -> step_md5 st blk = md5_compress st blk.
Proof.
  intros st blk F L. unfold md5_compress. rewrite (words16 4 num_le unpack_md5 blk unpack_le4 F) by lia.
  cbn [seq map Nat.mul Nat.add]. destruct st as [[[a b] c] d]. unfold step_md5. do 16 take1.
  abstract_words unpack_md5.
  rewrite md5_ops_eq. unfold md5_t. rewrite md5_table_eq.
  match goal with |- context [fold_left md5_op' ?l _] => let l' := eval vm_compute in l in change l with l' end.
  do 64 md5_step. reflexivity.
Qed.
