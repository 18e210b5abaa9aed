(* C95, C96: chacha20encrypt is ChaCha20 on messages of whole blocks, and not on others. *)
From Verif Require Import Base ListX Hash_Spec Hash_Model Hash_Steps Hash_Keccak Hash_Stream Hash_Props Chacha_Spec Chacha_Model.
From Coq Require Import NArith.
Open Scope N_scope.

(* ---- the rounds ---- *)
Lemma qr_r : forall {A} (f : N -> N -> N -> N -> A) r a b c d,
  (let '(a', b', c', d') := qr a b c d in f a' d' c' b') = r ->
  bnd (add 32 a b) (fun a1 => bnd (N.lor (shl 32 (N.lxor d a1) 16) (N.shiftr (N.lxor d a1) 16)) (fun d1 =>
  bnd (add 32 c d1) (fun c1 => bnd (N.lor (shl 32 (N.lxor b c1) 12) (N.shiftr (N.lxor b c1) 20)) (fun b1 =>
  bnd (add 32 a1 b1) (fun a2 => bnd (N.lor (shl 32 (N.lxor d1 a2) 8) (N.shiftr (N.lxor d1 a2) 24)) (fun d2 =>
  bnd (add 32 c1 d2) (fun c2 => bnd (N.lor (shl 32 (N.lxor b1 c2) 7) (N.shiftr (N.lxor b1 c2) 25)) (fun b2 => f a2 d2 c2 b2)))))))) = r.
Proof.
  intros A f r a b c d H. rewrite <- H. clear H. unfold qr.
  cbv beta iota zeta delta [bnd wadd rotl add shl]. change (32 - 16) with 16. change (32 - 12) with 20. change (32 - 8) with 24. change (32 - 7) with 25.
  reflexivity.
Qed.
Lemma quarter_cons : forall i j k l ps x, fold_left quarter ((i, j, k, l) :: ps) x
  = fold_left quarter ps (let '(a, b, c, d) := qr (nth i x 0) (nth j x 0) (nth k x 0) (nth l x 0) in set (set (set (set x i a) j b) k c) l d).
Proof. reflexivity. Qed.
Lemma list16 : forall A (l : list A), length l = 16%nat -> exists x0 x1 x2 x3 x4 x5 x6 x7 x8 x9 x10 x11 x12 x13 x14 x15,
  l = [x0; x1; x2; x3; x4; x5; x6; x7; x8; x9; x10; x11; x12; x13; x14; x15].
Proof.
  intros A l L. do 16 (destruct l as [ | ? l]; [ discriminate L | ]). destruct l; [ | discriminate L ].
  repeat eexists; reflexivity.
Qed.
Ltac qstep := rewrite quarter_cons; cbn [nth];
  lazymatch goal with |- context [qr ?a ?b ?c ?d] =>
    apply qr_r; destruct (qr a b c d) as [[[? ?] ?] ?]; cbn [set]; cbv beta
  end.
Lemma roundpair_ok : forall x, length x = 16%nat -> roundpair x = doubleround x.
Proof.
  intros x L. destruct (list16 _ x L) as (x0 & x1 & x2 & x3 & x4 & x5 & x6 & x7 & x8 & x9 & x10 & x11 & x12 & x13 & x14 & x15 & ->). clear L.
  unfold doubleround, roundpair. do 8 qstep. reflexivity.
Qed.
Lemma set_length : forall l i v, length (set l i v) = length l.
Proof. intros l. induction l as [ | a l IH]; intros [ | i] v; cbn; [ reflexivity .. | rewrite IH; reflexivity ]. Qed.
Lemma doubleround_length : forall x, length (doubleround x) = length x.
Proof.
  intros x. unfold doubleround. generalize [(0, 4, 8, 12); (1, 5, 9, 13); (2, 6, 10, 14); (3, 7, 11, 15); (0, 5, 10, 15); (1, 6, 11, 12); (2, 7, 8, 13); (3, 4, 9, 14)]%nat.
  intros l. revert x. induction l as [ | [[[i j] k] h] l IH]; intros x; cbn [fold_left]; [ reflexivity | ]. rewrite IH. unfold quarter.
  destruct (qr _ _ _ _) as [[[a b] c] d]. rewrite !set_length. reflexivity.
Qed.
Lemma iter_ok : forall (f g : list N -> list N) n x, (forall x, length x = 16%nat -> f x = g x) -> (forall x, length (g x) = length x) -> length x = 16%nat ->
  Nat.iter n f x = Nat.iter n g x /\ length (Nat.iter n g x) = 16%nat.
Proof.
  intros f g n x E K L. induction n as [ | n [IH1 IH2]]; [ split; [ reflexivity | exact L ] | ]. change (Nat.iter (S n) f x) with (f (Nat.iter n f x)).
  change (Nat.iter (S n) g x) with (g (Nat.iter n g x)). rewrite IH1, E by exact IH2. rewrite K. split; [ reflexivity | exact IH2 ].
Qed.
Lemma rounds_iter : forall n fuel x, (n <= fuel)%nat -> rounds fuel (2 * n) x = Nat.iter n roundpair x.
Proof.
  assert (R : forall (f : list N -> list N) n x, Nat.iter n f (f x) = f (Nat.iter n f x)).
  { intros f n x. induction n as [ | n IH]; [ reflexivity | ]. cbn. f_equal. exact IH. }
  intros n. induction n as [ | n IH]; intros fuel x L; destruct fuel as [ | fuel]; try reflexivity; [ lia | ].
  cbn [rounds]. destruct (Nat.ltb_spec 0 (2 * S n)); [ | lia ]. replace (2 * S n - 2)%nat with (2 * n)%nat by lia. rewrite IH by lia.
  apply R.
Qed.
Lemma core_ok : forall j, length j = 16%nat -> core j = map (fun p => wadd 32 (fst p) (snd p)) (combine (Nat.iter 10 doubleround j) j).
Proof.
  intros j L. unfold core. change 20%nat with (2 * 10)%nat at 2. rewrite rounds_iter by lia.
  destruct (iter_ok roundpair doubleround 10 j roundpair_ok doubleround_length L) as [-> L2]. revert L2. generalize (Nat.iter 10 doubleround j). intros x L2.
  destruct (list16 _ x L2) as (x0 & x1 & x2 & x3 & x4 & x5 & x6 & x7 & x8 & x9 & x10 & x11 & x12 & x13 & x14 & x15 & ->).
  destruct (list16 _ j L) as (y0 & y1 & y2 & y3 & y4 & y5 & y6 & y7 & y8 & y9 & y10 & y11 & y12 & y13 & y14 & y15 & ->). reflexivity.
Qed.
(* ---- bytes and words ---- *)
Lemma bytes_le_S : forall n v, bytes_le (S n) v = v mod 256 :: bytes_le n (v / 256).
Proof.
  intros n v. unfold bytes_le. cbn [seq map]. change (256 ^ N.of_nat 0) with 1. rewrite N.div_1_r. f_equal. rewrite <- seq_shift, map_map. apply map_ext. intros i.
  rewrite N.div_div by (try discriminate; apply N.pow_nonzero; discriminate). do 2 f_equal. rewrite Nat2N.inj_succ, N.pow_succ_r'. reflexivity.
Qed.
Lemma bytes_le_xor : forall l v, Forall is_byte l -> bytes_le (length l) (N.lxor v (num_le l)) = xor (bytes_le (length l) v) l.
Proof.
  intros l. induction l as [ | a l IH]; intros v F; [ reflexivity | ]. inversion F as [ | ? ? Ha Fl]; subst. cbn [length num_le fold_right]. fold (num_le l).
  rewrite !bytes_le_S. unfold xor. cbn [combine map fst snd]. fold (xor (bytes_le (length l) (v / 256)) l). rewrite <- IH by exact Fl.
  change 256 with (2 ^ 8). rewrite <- !N.land_ones, <- !N.shiftr_div_pow2. f_equal.
  - apply N.bits_inj. intros n. rewrite N.lxor_spec, !N.land_spec, N.lxor_spec.
    replace (N.testbit a n) with (N.testbit (a + 2 ^ 8 * num_le l) n && N.testbit (N.ones 8) n); [ destruct (N.testbit v n), (N.testbit (a + 2 ^ 8 * num_le l) n), (N.testbit (N.ones 8) n); reflexivity | ].
    rewrite <- N.land_spec, N.land_ones. rewrite (N.mul_comm (2 ^ 8)), N.mod_add by discriminate. rewrite N.mod_small by exact Ha. reflexivity.
  - f_equal. rewrite N.shiftr_lxor. f_equal. rewrite N.shiftr_div_pow2. rewrite (N.mul_comm (2 ^ 8)), N.div_add by discriminate.
    rewrite N.div_small by exact Ha. reflexivity.
Qed.
Lemma xor_app : forall a b c d, length a = length c -> xor (a ++ b) (c ++ d) = xor a c ++ xor b d.
Proof.
  intros a. induction a as [ | x a IH]; intros b [ | y c] d L; try discriminate L; [ reflexivity | ]. unfold xor in *. cbn [app combine map]. f_equal. apply IH. injection L as L. exact L.
Qed.
Lemma xor_comm : forall a b, xor a b = xor b a.
Proof. intros a. induction a as [ | x a IH]; intros [ | y b]; try reflexivity. unfold xor in *. cbn [combine map fst snd]. rewrite N.lxor_comm. f_equal. apply IH. Qed.
Lemma xor_length : forall a b, length a = length b -> length (xor a b) = length a.
Proof. intros a b L. unfold xor. rewrite map_length, combine_length. lia. Qed.
Lemma xor_twice : forall m k, length m = length k -> xor (xor m k) k = m.
Proof.
  intros m. induction m as [ | a m IH]; intros [ | b k] L; try discriminate L; [ reflexivity | ]. unfold xor in *. cbn [combine map fst snd].
  rewrite N.lxor_assoc, N.lxor_nilpotent, N.lxor_0_r. f_equal. apply IH. injection L as L. exact L.
Qed.
Lemma xorwords_nth : forall x m, length x = 16%nat -> length m = 64%nat -> Forall is_byte m ->
  concat (map (putle 4) (xorwords x m)) = xor (concat (map (bytes_le 4) x)) m.
Proof.
  intros x m Lx Lm F. destruct (list16 _ x Lx) as (x0 & x1 & x2 & x3 & x4 & x5 & x6 & x7 & x8 & x9 & x10 & x11 & x12 & x13 & x14 & x15 & ->).
  do 64 (destruct m as [ | ? m]; [ discriminate Lm | ]). destruct m; [ | discriminate Lm ]. clear Lx Lm.
  unfold xorwords. rewrite (map_ext (putle 4) (bytes_le 4)) by (intros; apply putle_ok).
  assert (W : forall v a b c d, is_byte a -> is_byte b -> is_byte c -> is_byte d -> bytes_le 4 (N.lxor v (getle32 [a; b; c; d])) = xor (bytes_le 4 v) [a; b; c; d]).
  { intros v a b c d Ha Hb Hc Hd. apply (bytes_le_xor [a; b; c; d] v). repeat constructor; assumption. }
  repeat match goal with H : Forall is_byte (_ :: _) |- _ => inversion H; clear H; subst end.
  cbn [seq map idx nth slice Nat.mul Nat.add Nat.sub firstn skipn concat]. rewrite !W by assumption.
  unfold bytes_le. cbn [seq map]. reflexivity.
Qed.
Lemma num_bytes : forall k v, num_le (bytes_le k v) = v mod 256 ^ N.of_nat k.
Proof.
  intros k. induction k as [ | k IH]; intros v; [ symmetry; apply N.mod_1_r | ]. rewrite bytes_le_S. cbn [num_le fold_right]. fold (num_le (bytes_le k (v / 256))). rewrite IH.
  rewrite Nat2N.inj_succ, N.pow_succ_r'. rewrite N.mod_mul_r by (try discriminate; apply N.pow_nonzero; discriminate). reflexivity.
Qed.
Lemma words8 : forall n, n < 2 ^ 64 -> words (bytes_le 8 n) = [n mod 2 ^ 32; n / 2 ^ 32].
Proof.
  intros n H. assert (E : bytes_le 8 n = bytes_le 4 n ++ bytes_le 4 (n / 2 ^ 32)).
  { do 4 rewrite bytes_le_S. cbn [app]. rewrite (bytes_le_S 3 n), (bytes_le_S 2 (n / 256)), (bytes_le_S 1 (n / 256 / 256)), (bytes_le_S 0 (n / 256 / 256 / 256)).
    cbn [app bytes_le seq map]. do 4 f_equal. rewrite !N.div_div by discriminate. reflexivity. }
  rewrite E. unfold words. rewrite (chunks_app 4 1) by (try lia; rewrite len_le; reflexivity).
  rewrite !chunks_one by (try lia; apply len_le). cbn [app map]. rewrite !num_bytes. change (256 ^ N.of_nat 4) with (2 ^ 32).
  rewrite (N.mod_small (n / 2 ^ 32)); [ reflexivity | ]. apply N.div_lt_upper_bound; [ discriminate | ]. exact H.
Qed.
Definition keyed (key nonce : list N) : Prop := (length key = 16%nat \/ length key = 32%nat) /\ length nonce = 8%nat.
Lemma words_length : forall l k, length l = (k * 4)%nat -> length (words l) = k.
Proof. intros l k L. unfold words, chunks. rewrite !map_length, seq_length, L. apply Nat.div_mul. lia. Qed.
Lemma start_shape : forall key nonce n, keyed key nonce -> n < 2 ^ 64 -> exists c0 c1 c2 c3 k0 k1 k2 k3 k4 k5 k6 k7 v0 v1,
  words (constants key) = [c0; c1; c2; c3] /\ words (if (length key =? 32)%nat then key else key ++ key) = [k0; k1; k2; k3; k4; k5; k6; k7] /\
  words nonce = [v0; v1] /\ start key nonce n = [c0; c1; c2; c3; k0; k1; k2; k3; k4; k5; k6; k7; n mod 2 ^ 32; n / 2 ^ 32; v0; v1].
Proof.
  intros key nonce n [Hk Hn] H.
  assert (L1 : length (words (constants key)) = 4%nat) by (apply words_length; unfold constants; destruct (_ =? _)%nat; reflexivity).
  assert (L2 : length (words (if (length key =? 32)%nat then key else key ++ key)) = 8%nat).
  { apply words_length. destruct (Nat.eqb_spec (length key) 32) as [E | E]; rewrite ?app_length; lia. }
  assert (L3 : length (words nonce) = 2%nat) by (apply words_length; rewrite Hn; reflexivity).
  unfold start. rewrite words8 by exact H. revert L1 L2 L3.
  generalize (words (constants key)), (words (if (length key =? 32)%nat then key else key ++ key)), (words nonce). intros a b c L1 L2 L3.
  do 4 (destruct a as [ | ? a]; [ discriminate L1 | ]). destruct a; [ | discriminate L1 ].
  do 8 (destruct b as [ | ? b]; [ discriminate L2 | ]). destruct b; [ | discriminate L2 ].
  do 2 (destruct c as [ | ? c]; [ discriminate L3 | ]). destruct c; [ | discriminate L3 ].
  repeat eexists.
Qed.
Lemma start_length : forall key nonce n, keyed key nonce -> n < 2 ^ 64 -> length (start key nonce n) = 16%nat.
Proof.
  intros key nonce n K H. destruct (start_shape key nonce n K H) as (? & ? & ? & ? & ? & ? & ? & ? & ? & ? & ? & ? & ? & ? & _ & _ & _ & ->). reflexivity.
Qed.
Lemma next_lt : forall n, n mod 2 ^ 64 < 2 ^ 64.
Proof. intros. apply N.mod_lt. discriminate. Qed.
Lemma count_ok : forall key nonce n, keyed key nonce -> n < 2 ^ 64 -> count (start key nonce n) = start key nonce ((n + 1) mod 2 ^ 64).
Proof.
  intros key nonce n K H. destruct (start_shape key nonce n K H) as (c0 & c1 & c2 & c3 & k0 & k1 & k2 & k3 & k4 & k5 & k6 & k7 & v0 & v1 & E1 & E2 & E3 & ->).
  unfold start. rewrite E1, E2, E3, words8 by apply next_lt. unfold count. cbn [idx nth setat firstn skipn app length Nat.add].
  assert (D : n = 2 ^ 32 * (n / 2 ^ 32) + n mod 2 ^ 32) by (apply N.div_mod; discriminate).
  assert (M : n mod 2 ^ 32 < 2 ^ 32) by (apply N.mod_lt; discriminate).
  assert (Q : n / 2 ^ 32 < 2 ^ 32) by (apply N.div_lt_upper_bound; [ discriminate | exact H ]).
  unfold add. revert D M Q. generalize (n / 2 ^ 32), (n mod 2 ^ 32). intros q r D M Q.
  assert (G : ((r + 1) mod 2 ^ 32 = (n + 1) mod 2 ^ 64 mod 2 ^ 32 /\ (if (r + 1) mod 2 ^ 32 =? 0 then (q + 1) mod 2 ^ 32 else q) = (n + 1) mod 2 ^ 64 / 2 ^ 32)).
  { change (2 ^ 64) with (2 ^ 32 * 2 ^ 32). change (2 ^ 32) with 4294967296 in *. destruct (N.eq_dec (r + 1) 4294967296) as [C | C].
    - rewrite C, N.mod_same by discriminate. cbn [N.eqb].
      replace (n + 1) with (4294967296 * (q + 1)) by lia. rewrite N.mul_mod_distr_l by discriminate.
      rewrite (N.mul_comm 4294967296 ((q + 1) mod _)), N.mod_mul, N.div_mul by discriminate. split; reflexivity.
    - rewrite (N.mod_small (r + 1)) by lia. destruct (N.eqb_spec (r + 1) 0); [ lia | ].
      rewrite (N.mod_small (n + 1)) by lia. replace (n + 1) with ((r + 1) + q * 4294967296) by lia.
      rewrite N.mod_add, N.div_add, N.mod_small, N.div_small by lia. split; [ reflexivity | lia ]. }
  destruct G as [G1 G2]. rewrite G2, <- G1. reflexivity.
Qed.
Lemma block_length : forall key nonce n, keyed key nonce -> n < 2 ^ 64 -> length (block key nonce n) = 64%nat.
Proof.
  intros key nonce n K H. unfold block. assert (L := start_length key nonce n K H). revert L. generalize (start key nonce n). intros s L.
  destruct (iter_ok doubleround doubleround 10 s (fun _ _ => eq_refl) doubleround_length L) as [_ L2].
  assert (W : forall l : list N, length (concat (map (bytes_le 4) l)) = (4 * length l)%nat).
  { clear. intros l. induction l as [ | a l IH]; [ reflexivity | ]. cbn [map concat length]. rewrite app_length, len_le, IH. lia. }
  rewrite W, map_length, combine_length, L, L2. reflexivity.
Qed.
Lemma oneblock_gen : forall x s m B, length x = 16%nat -> length s = 16%nat -> length m = 64%nat -> Forall is_byte m ->
  B = concat (map (bytes_le 4) (map (fun p => wadd 32 (fst p) (snd p)) (combine x s))) ->
  concat (map (putle 4) (xorwords (map (fun p => wadd 32 (fst p) (snd p)) (combine x s)) m)) = xor m B.
Proof.
  intros x s m B L1 L2 L F ->. rewrite xor_comm. apply xorwords_nth; [ | exact L | exact F ]. rewrite map_length, combine_length, L1, L2. reflexivity.
Qed.
Lemma oneblock : forall key nonce n m, keyed key nonce -> n < 2 ^ 64 -> length m = 64%nat -> Forall is_byte m ->
  concat (map (putle 4) (xorwords (core (start key nonce n)) m)) = xor m (block key nonce n).
Proof.
  intros key nonce n m K H L F. assert (Ls := start_length key nonce n K H). rewrite core_ok by exact Ls.
  destruct (iter_ok doubleround doubleround 10 _ (fun _ _ => eq_refl) doubleround_length Ls) as [_ L2].
  apply oneblock_gen; [ exact L2 | exact Ls | exact L | exact F | ]. unfold block. cbv zeta. reflexivity.
Qed.
Lemma keystream_S : forall key nonce n k, n < 2 ^ 64 -> keystream key nonce n (S k) = block key nonce n ++ keystream key nonce ((n + 1) mod 2 ^ 64) k.
Proof.
  intros key nonce n k H. unfold keystream. cbn [seq map concat]. rewrite N.add_0_r, N.mod_small by exact H. f_equal. f_equal. rewrite <- seq_shift, map_map.
  apply map_ext. intros i. f_equal. rewrite N.add_mod_idemp_l by discriminate. f_equal. lia.
Qed.
Lemma keystream_app : forall key nonce a n b, n < 2 ^ 64 ->
  keystream key nonce n (a + b) = keystream key nonce n a ++ keystream key nonce ((n + N.of_nat a) mod 2 ^ 64) b.
Proof.
  intros key nonce a. induction a as [ | a IH]; intros n b H.
  - rewrite N.add_0_r, N.mod_small by exact H. reflexivity.
  - cbn [Nat.add]. rewrite !keystream_S by exact H. rewrite IH by apply next_lt. rewrite <- app_assoc. do 3 f_equal. rewrite N.add_mod_idemp_l by discriminate. f_equal. lia.
Qed.
Lemma keystream_length : forall key nonce k n, keyed key nonce -> n < 2 ^ 64 -> length (keystream key nonce n k) = (64 * k)%nat.
Proof.
  intros key nonce k. induction k as [ | k IH]; intros n K H; [ reflexivity | ]. rewrite keystream_S, app_length, block_length, IH by (try assumption; apply next_lt). lia.
Qed.
Lemma setat0 : forall c l, setat c 0 l = l ++ skipn (length l) c.
Proof. reflexivity. Qed.
Lemma Fskip : forall k (l : list N), Forall is_byte l -> Forall is_byte (firstn k l) /\ Forall is_byte (skipn k l).
Proof. intros k l F. rewrite <- Forall_app, firstn_skipn. exact F. Qed.
Lemma firstn_plus : forall A a b (l : list A), firstn (a + b) l = firstn a l ++ firstn b (skipn a l).
Proof. intros A a. induction a as [ | a IH]; intros b l; [ reflexivity | ]. destruct l as [ | x l]; [ rewrite !firstn_nil; reflexivity | ]. cbn [Nat.add firstn skipn app]. f_equal. apply IH. Qed.
(* whole blocks followed by t bytes, which are not written *)
Lemma encloop_ok : forall key nonce k t fuel tmp n m c, keyed key nonce -> n < 2 ^ 64 -> length tmp = 64%nat -> Forall is_byte m ->
  length m = (64 * k + t)%nat -> length c = length m -> (t < 64)%nat -> (k < fuel)%nat ->
  encloop fuel tmp (start key nonce n) m c
    = Some (start key nonce ((n + N.of_nat k + (if ((t =? 0) && (0 <? k))%nat then 0 else 1)) mod 2 ^ 64),
            xor (firstn (64 * k) m) (keystream key nonce n k) ++ skipn (64 * k) c).
Proof.
  intros key nonce k. induction k as [ | k IH]; intros t fuel tmp n m c K H Lt F Lm Lc Ht Hf; (destruct fuel as [ | fuel]; [ lia | ]); cbn [encloop].
  - assert (length m < 64)%nat by lia. rewrite (proj2 (Nat.ltb_lt _ _)) by assumption.
    assert (E : length (setat tmp 0 m) = 64%nat) by (rewrite setat0, app_length, skipn_length; lia). rewrite E. cbn [Nat.leb Nat.ltb].
    rewrite count_ok by assumption. rewrite andb_false_r. cbn [Nat.mul firstn skipn N.of_nat]. rewrite N.add_0_r. reflexivity.
  - assert (64 <= length m)%nat by lia. rewrite (proj2 (Nat.ltb_ge _ _)) by assumption.
    assert (L64 : length (firstn 64 m) = 64%nat) by (rewrite firstn_length; lia).
    assert (X : xorwords (core (start key nonce n)) m = xorwords (core (start key nonce n)) (firstn 64 m)).
    { unfold xorwords. apply map_ext_in. intros i Hi. apply in_seq in Hi. f_equal. f_equal. unfold slice. replace (4 * i + 4 - 4 * i)%nat with 4%nat by lia.
      rewrite skipn_firstn_comm, firstn_firstn. f_equal. lia. }
    assert (P : putwords c (xorwords (core (start key nonce n)) m) = xor (firstn 64 m) (block key nonce n) ++ skipn 64 c).
    { unfold putwords. rewrite X, oneblock by (try assumption; apply Fskip; exact F). rewrite setat0. rewrite xor_length; rewrite L64; [ reflexivity | symmetry; apply block_length; assumption ]. }
    rewrite P. rewrite count_ok by assumption. clear P X.
    assert (Lx : length (xor (firstn 64 m) (block key nonce n)) = 64%nat) by (rewrite xor_length; rewrite L64; [ reflexivity | symmetry; apply block_length; assumption ]).
    destruct (Nat.leb_spec (length m) 64) as [Q | Q].
    + assert (k = 0%nat /\ t = 0%nat) as [-> ->] by lia. rewrite (proj2 (Nat.ltb_ge (length m) 64)) by lia. cbn [Nat.eqb Nat.ltb Nat.leb andb].
      rewrite N.add_0_r. change (N.of_nat 1) with 1. change (64 * 1)%nat with 64%nat. rewrite keystream_S by exact H.
      unfold keystream. cbn [seq map concat]. rewrite app_nil_r. reflexivity.
    + assert (F2 : firstn 64 (xor (firstn 64 m) (block key nonce n) ++ skipn 64 c) = xor (firstn 64 m) (block key nonce n)) by (rewrite <- Lx at 1; apply firstn_app_exact).
      assert (S2 : skipn 64 (xor (firstn 64 m) (block key nonce n) ++ skipn 64 c) = skipn 64 c) by (rewrite <- Lx at 1; apply skipn_app_exact).
      rewrite F2, S2. rewrite (IH t fuel tmp ((n + 1) mod 2 ^ 64) (skipn 64 m) (skipn 64 c)); try assumption; try lia.
      * cbn [option_map]. f_equal. f_equal.
        -- f_equal. rewrite <- N.add_assoc, N.add_mod_idemp_l by discriminate. f_equal. rewrite Nat2N.inj_succ.
           destruct (Nat.eqb_spec t 0) as [T | T]; cbn [andb]; [ | lia ].
           rewrite (proj2 (Nat.ltb_lt 0 (S k))) by lia. destruct (Nat.ltb_spec 0 k); lia.
        -- replace (64 * S k)%nat with (64 + 64 * k)%nat by lia. rewrite keystream_S by exact H. rewrite app_assoc. f_equal.
           ++ rewrite firstn_plus.
              rewrite xor_app by (rewrite L64; symmetry; apply block_length; assumption). reflexivity.
           ++ rewrite skipn_skipn. reflexivity.
      * apply Fskip, F.
      * rewrite skipn_length. lia.
      * rewrite !skipn_length. lia.
Qed.

(* C95: the two set-up functions give the words of block 0, whatever the array held *)
Lemma setup_ok : forall x key nonce, length x = 16%nat -> keyed key nonce ->
  exists y, keysetup x key = Some y /\ ivsetup y nonce = Some (start key nonce 0).
Proof.
  intros x key nonce Lx [Hk Hn].
  destruct (list16 N x Lx) as (? & ? & ? & ? & ? & ? & ? & ? & ? & ? & ? & ? & ? & ? & ? & ? & ->). clear Lx.
  do 8 (destruct nonce as [ | ? nonce]; [ discriminate Hn | ]). destruct nonce; [ | discriminate Hn ]. clear Hn.
  destruct Hk as [Hk | Hk].
  - do 16 (destruct key as [ | ? key]; [ discriminate Hk | ]). destruct key; [ | discriminate Hk ]. eexists. split; reflexivity.
  - do 32 (destruct key as [ | ? key]; [ discriminate Hk | ]). destruct key; [ | discriminate Hk ]. eexists. split; reflexivity.
Qed.

(* C95: the context after the set-up, after any number of encryptions *)
Lemma back : forall key nonce n n', keyed key nonce -> n < 2 ^ 64 -> n' < 2 ^ 64 ->
  setat (start key nonce n) 12 [idx (start key nonce n') 12; idx (start key nonce n') 13] = start key nonce n'.
Proof.
  intros key nonce n n' K H H'. destruct (start_shape key nonce n K H) as (? & ? & ? & ? & ? & ? & ? & ? & ? & ? & ? & ? & ? & ? & E1 & E2 & E3 & ->).
  unfold start. rewrite E1, E2, E3, words8 by exact H'. reflexivity.
Qed.
Lemma encrypt_ok : forall key nonce n junk m c k t, keyed key nonce -> n < 2 ^ 64 -> length junk = 64%nat -> Forall is_byte m ->
  length m = (64 * k + t)%nat -> (t < 64)%nat -> length c = length m ->
  encrypt junk (start key nonce n) m c
    = Some (start key nonce ((n + N.of_nat k + (if ((t =? 0) && (0 <? k))%nat then 0 else 1)) mod 2 ^ 64),
            xor (firstn (64 * k) m) (keystream key nonce n k) ++ skipn (64 * k) c).
Proof.
  intros key nonce n junk m c k t K H Lj F Lm Ht Lc. unfold encrypt. rewrite (proj2 (Nat.eqb_eq _ _)) by (symmetry; exact Lc).
  rewrite (encloop_ok key nonce k t) by (assumption || lia). rewrite back by (try assumption; apply next_lt). reflexivity.
Qed.

(* C95: with a key of 16 or 32 bytes and a nonce of 8, a message of one or more whole blocks encrypted right after the
   set-up is xored with the key stream from block 0; the next call goes on where this one stopped.  Missing: messages that
   end in a part of a block (C95_tail_refuted) and the empty message (C95_empty_refuted). *)
Theorem C95_encrypt_partial : forall x0 key nonce, length x0 = 16%nat -> (length key = 16%nat \/ length key = 32%nat) -> length nonce = 8%nat ->
  exists x1 x, keysetup x0 key = Some x1 /\ ivsetup x1 nonce = Some x /\
  forall k m junk c, length m = (64 * S k)%nat -> Forall is_byte m -> length c = length m -> length junk = 64%nat ->
  exists y, encrypt junk x m c = Some (y, xor m (keystream key nonce 0 (S k))) /\
  forall k' m' junk' c', length m' = (64 * S k')%nat -> Forall is_byte m' -> length c' = length m' -> length junk' = 64%nat ->
  exists z, encrypt junk' y m' c' = Some (z, xor m' (skipn (64 * S k) (keystream key nonce 0 (S k + S k')))).
Proof.
  intros x0 key nonce L Hk Hn. destruct (setup_ok x0 key nonce L (conj Hk Hn)) as (x1 & E1 & E2).
  exists x1, (start key nonce 0). split; [ exact E1 | ]. split; [ exact E2 | ].
  intros k m junk c Lm F Lc Lj. eexists. split.
  - rewrite (encrypt_ok key nonce 0 junk m c (S k) 0); try assumption; try (split; assumption); try lia.
    rewrite <- Lm, firstn_all, skipn_all2, app_nil_r by lia. reflexivity.
  - intros k' m' junk' c' Lm' F' Lc' Lj'. eexists.
    rewrite (encrypt_ok key nonce _ junk' m' c' (S k') 0); try assumption; try apply next_lt; try (split; assumption); try lia.
    rewrite <- Lm', firstn_all, skipn_all2, app_nil_r by lia. f_equal. f_equal. f_equal.
    rewrite keystream_app by reflexivity. rewrite <- (keystream_length key nonce (S k) 0) by (try reflexivity; split; assumption). rewrite skipn_app_exact.
    cbn [Nat.eqb Nat.ltb Nat.leb andb]. rewrite N.add_0_r. reflexivity.
Qed.

(* C95: any number of calls, each with a message of whole blocks, encrypts as one call with the messages joined *)
Fixpoint calls (junk x : list N) (ms : list (list N)) : option (list N * list N) :=
  match ms with
  | [] => Some (x, [])
  | m :: ms =>
      match encrypt junk x m m with
      | Some (x, c) => option_map (fun '(x, cs) => (x, c ++ cs)) (calls junk x ms)
      | None => None
      end
  end.
Theorem C95_pieces : forall key nonce junk ms n, (length key = 16%nat \/ length key = 32%nat) -> length nonce = 8%nat -> n < 2 ^ 64 -> length junk = 64%nat ->
  Forall (fun m => Forall is_byte m /\ exists k, length m = (64 * S k)%nat) ms ->
  exists k, length (concat ms) = (64 * k)%nat /\
    calls junk (start key nonce n) ms = Some (start key nonce ((n + N.of_nat k) mod 2 ^ 64), xor (concat ms) (keystream key nonce n k)).
Proof.
  intros key nonce junk ms. induction ms as [ | m ms IH]; intros n Hk Hn H Lj F.
  - exists 0%nat. split; [ reflexivity | ]. cbn [calls]. rewrite N.add_0_r, N.mod_small by exact H. reflexivity.
  - inversion F as [ | ? ? [Fm [k Lm]] F']; subst. destruct (IH ((n + N.of_nat (S k)) mod 2 ^ 64) Hk Hn (next_lt _) Lj F') as (k' & L' & E').
    exists (S k + k')%nat. cbn [concat calls]. split; [ rewrite app_length, Lm, L'; lia | ].
    rewrite (encrypt_ok key nonce n junk m m (S k) 0); try assumption; try (split; assumption); try lia.
    cbn [Nat.eqb Nat.ltb Nat.leb andb]. rewrite N.add_0_r, E'. cbn [option_map]. rewrite <- Lm, firstn_all, skipn_all2, app_nil_r by lia.
    f_equal. f_equal.
    + rewrite N.add_mod_idemp_l by discriminate. do 2 f_equal. lia.
    + rewrite keystream_app by exact H. rewrite xor_app; [ reflexivity | ]. rewrite keystream_length by (try exact H; split; assumption). exact Lm.
Qed.

(* C95, refuted: of a message that ends in a part of a block, the last bytes are never encrypted: the output buffer keeps
   there whatever it held *)
Theorem C95_tail_refuted : forall key nonce junk n m c k t, (length key = 16%nat \/ length key = 32%nat) -> length nonce = 8%nat -> n < 2 ^ 64 ->
  length junk = 64%nat -> Forall is_byte m -> length m = (64 * k + t)%nat -> (0 < t < 64)%nat -> length c = length m ->
  exists y, encrypt junk (start key nonce n) m c = Some (y, xor (firstn (64 * k) m) (keystream key nonce n k) ++ skipn (64 * k) c).
Proof.
  intros key nonce junk n m c k t Hk Hn H Lj F Lm Ht Lc. eexists. apply (encrypt_ok key nonce n junk m c k t); try assumption; try lia. split; assumption.
Qed.
(* C95, refuted: encrypting nothing skips a block of the key stream *)
Theorem C95_empty_refuted : forall key nonce junk n, (length key = 16%nat \/ length key = 32%nat) -> length nonce = 8%nat -> n < 2 ^ 64 -> length junk = 64%nat ->
  encrypt junk (start key nonce n) [] [] = Some (start key nonce ((n + 1) mod 2 ^ 64), []).
Proof.
  intros key nonce junk n Hk Hn H Lj. rewrite (encrypt_ok key nonce n junk [] [] 0 0); try assumption; try (split; assumption); try constructor; try (cbn [length]; lia).
  cbn [Nat.eqb Nat.ltb Nat.leb andb N.of_nat Nat.mul firstn skipn]. rewrite N.add_0_r. reflexivity.
Qed.

(* C95: a key of another length, a nonce that is too short, buffers of different lengths: the program stops *)
Theorem C95_rejects : forall x, length x = 16%nat ->
  (forall key, length key <> 16%nat -> length key <> 32%nat -> keysetup x key = None) /\
  (forall nonce, (length nonce < 8)%nat -> ivsetup x nonce = None) /\
  (forall junk m c, length m <> length c -> encrypt junk x m c = None).
Proof.
  intros x L. repeat split.
  - intros key H1 H2. unfold keysetup. destruct (Nat.ltb_spec (length key) 16); [ reflexivity | ].
    destruct (Nat.eqb_spec (length key * 8) 256); [ lia | ]. destruct (Nat.eqb_spec (length key * 8) 128); [ lia | reflexivity ].
  - intros nonce H. unfold ivsetup. rewrite (proj2 (Nat.ltb_lt _ _)) by exact H. reflexivity.
  - intros junk m c H. unfold encrypt. rewrite (proj2 (Nat.eqb_neq _ _)) by exact H. reflexivity.
Qed.

(* C96: encrypting the ciphertext of whole blocks again, from the same place, gives the message back.  Missing: messages
   that end in a part of a block, whose last bytes are lost (C96_lost_refuted). *)
Lemma xor_bytes : forall a b, Forall is_byte a -> Forall is_byte b -> Forall is_byte (xor a b).
Proof.
  intros a. induction a as [ | x a IH]; intros b Fa Fb; [ constructor | ]. destruct b as [ | y b]; [ constructor | ].
  inversion Fa; inversion Fb; subst. constructor; [ | apply IH; assumption ]. cbn [fst snd].
  unfold is_byte in *. destruct (N.eq_dec (N.lxor x y) 0) as [-> | Z]; [ reflexivity | ]. change 256 with (2 ^ 8). apply N.log2_lt_pow2; [ lia | ].
  eapply N.le_lt_trans; [ apply N.log2_lxor | ]. apply N.max_lub_lt.
  - destruct (N.eq_dec x 0) as [-> | ]; [ reflexivity | apply N.log2_lt_pow2; [ lia | assumption ] ].
  - destruct (N.eq_dec y 0) as [-> | ]; [ reflexivity | apply N.log2_lt_pow2; [ lia | assumption ] ].
Qed.
Lemma keystream_bytes : forall key nonce n k, Forall is_byte (keystream key nonce n k).
Proof.
  intros. unfold keystream. apply Forall_concat. apply Forall_map. apply Forall_forall. intros i _. unfold block. apply Forall_concat. apply Forall_map. apply Forall_forall.
  intros v _. unfold bytes_le. apply Forall_map. apply Forall_forall. intros j _. apply N.mod_lt. discriminate.
Qed.
Theorem C96_decrypt_partial : forall key nonce n k m junk c junk' c', (length key = 16%nat \/ length key = 32%nat) -> length nonce = 8%nat -> n < 2 ^ 64 ->
  length junk = 64%nat -> length junk' = 64%nat -> length m = (64 * S k)%nat -> Forall is_byte m -> length c = length m -> length c' = length m ->
  exists y e, encrypt junk (start key nonce n) m c = Some (y, e) /\ encrypt junk' (start key nonce n) e c' = Some (y, m).
Proof.
  intros key nonce n k m junk c junk' c' Hk Hn H Lj Lj' Lm F Lc Lc'. assert (K : keyed key nonce) by (split; assumption).
  assert (Lk := keystream_length key nonce (S k) n K H). assert (Lx : length (xor m (keystream key nonce n (S k))) = (64 * S k)%nat) by (rewrite xor_length; lia).
  eexists. exists (xor m (keystream key nonce n (S k))). split.
  - rewrite (encrypt_ok key nonce n junk m c (S k) 0); try assumption; try lia. rewrite firstn_all2, skipn_all2, app_nil_r by lia. reflexivity.
  - rewrite (encrypt_ok key nonce n junk' (xor m (keystream key nonce n (S k))) c' (S k) 0); try assumption; try lia.
    + rewrite firstn_all2, skipn_all2, app_nil_r by lia. rewrite xor_twice by lia. reflexivity.
    + apply xor_bytes; [ exact F | apply keystream_bytes ].
Qed.
(* C96, refuted: two messages that differ in their last bytes only, beyond the last whole block, have the same ciphertext *)
Theorem C96_lost_refuted : forall key nonce junk n m a b c k, (length key = 16%nat \/ length key = 32%nat) -> length nonce = 8%nat -> n < 2 ^ 64 ->
  length junk = 64%nat -> Forall is_byte m -> length m = (64 * k)%nat -> Forall is_byte a -> Forall is_byte b -> length a = length b -> (0 < length a < 64)%nat ->
  length c = (length m + length a)%nat -> encrypt junk (start key nonce n) (m ++ a) c = encrypt junk (start key nonce n) (m ++ b) c.
Proof.
  intros key nonce junk n m a b c k Hk Hn H Lj Fm Lm Fa Fb Lab La Lc.
  rewrite (encrypt_ok key nonce n junk (m ++ a) c k (length a)), (encrypt_ok key nonce n junk (m ++ b) c k (length a));
    try assumption; try (rewrite app_length; lia); try lia; try (split; assumption); try (apply Forall_app; split; assumption).
  rewrite <- Lm, !firstn_app_exact. reflexivity.
Qed.

(* the key stream of the all-zero 32-byte key and nonce begins with the bytes its author published *)
Example C95_vector : firstn 16 (block (repeat 0 32) (repeat 0 8) 0) = [0x76; 0xb8; 0xe0; 0xad; 0xa0; 0xf1; 0x3d; 0x90; 0x40; 0x5d; 0x6a; 0xe5; 0x53; 0x86; 0xbd; 0x28].
Proof. vm_compute. reflexivity. Qed.
Example C95_met : exists y, encrypt (repeat 7 64) (start (repeat 1 32) (repeat 2 8) (2 ^ 32 - 1)) (repeat 3 128) (repeat 0 128)
  = Some (y, xor (repeat 3 128) (keystream (repeat 1 32) (repeat 2 8) (2 ^ 32 - 1) 2)) /\ idx y 12 = 1 /\ idx y 13 = 1.
Proof. eexists. split; [ vm_compute; reflexivity | split; vm_compute; reflexivity ]. Qed.
Example C95_tail_met : exists y, encrypt (repeat 7 64) (start (repeat 1 16) (repeat 2 8) 0) (repeat 3 10) (repeat 9 10) = Some (y, repeat 9 10).
Proof. eexists. vm_compute. reflexivity. Qed.
Print Assumptions C95_encrypt_partial.
Print Assumptions C95_pieces.
Print Assumptions C95_tail_refuted.
Print Assumptions C95_empty_refuted.
Print Assumptions C95_rejects.
Print Assumptions C96_decrypt_partial.
Print Assumptions C96_lost_refuted.
