(* C103 (random bytes), C104 (random numbers in a range), C105 (seeds). *)
From Coq Require Import List Arith NArith ZArith Lia Bool.
From Verif Require Import Hash_Spec Rand_Spec Rand_Model.
Import ListNotations.
Open Scope N_scope.

Fixpoint gnums (k : nat) (rng : N * N) : list N :=
  match k with O => [] | S k => snd (rngrandnum rng) :: gnums k (fst (rngrandnum rng)) end.

(* C103: the generator is xoroshiro128+ *)
Theorem C103_generator : forall s0 s1, rngrandnum (s0, s1) = (next (s0, s1), number (s0, s1)).
Proof. reflexivity. Qed.
Lemma gnums_eq : forall k s, numbers k s = gnums k s.
Proof. intros k. induction k as [ | k IH]; intros [s0 s1]; [ reflexivity | ]. cbn [numbers gnums]. rewrite C103_generator. cbn [fst snd]. f_equal. apply IH. Qed.
Lemma land_ff : forall x, N.land x 0xff = x mod 256.
Proof. intros x. change 0xff with (N.ones 8). rewrite N.land_ones. reflexivity. Qed.
Lemma shift_div : forall x i, N.shiftr x (8 * N.of_nat i) = x / 256 ^ N.of_nat i.
Proof. intros x i. rewrite N.shiftr_div_pow2, N.pow_mul_r. reflexivity. Qed.
Lemma putle64_ok : forall r, putle64 r = bytes_le 8 r.
Proof. intros r. unfold putle64, bytes_le. apply map_ext. intros i. rewrite land_ff, shift_div. reflexivity. Qed.
Lemma tail_ok : forall k r, tailloop k r = bytes_le k r.
Proof.
  intros k. induction k as [ | k IH]; intros r; [ reflexivity | ]. cbn [tailloop]. rewrite IH, land_ff. unfold bytes_le. cbn [seq map]. f_equal; [ rewrite N.div_1_r; reflexivity | ].
  rewrite <- seq_shift, map_map. apply map_ext. intros i. rewrite N.shiftr_div_pow2. change (2 ^ 8) with 256. rewrite Nat2N.inj_succ, N.pow_succ_r', N.div_div by (try discriminate; apply N.pow_nonzero; discriminate). reflexivity.
Qed.
Lemma word_ok : forall k rng, snd (wordloop k rng) = concat (map (bytes_le 8) (gnums k rng)) /\ fst (wordloop k rng) = Nat.iter k (fun s => fst (rngrandnum s)) rng.
Proof.
  assert (C : forall k (s : N * N), Nat.iter k (fun s => fst (rngrandnum s)) (fst (rngrandnum s)) = Nat.iter (S k) (fun s => fst (rngrandnum s)) s).
  { intros k. induction k as [ | k IH]; intros s; [ reflexivity | ]. cbn [Nat.iter nat_rect] in *. unfold Nat.iter in *. cbn [nat_rect]. rewrite IH. reflexivity. }
  intros k. induction k as [ | k IH]; intros rng; [ split; reflexivity | ]. cbn [wordloop gnums]. destruct (rngrandnum rng) as [rng' r] eqn:E. cbn [fst snd].
  specialize (IH rng'). destruct (wordloop k rng') as [rng2 rest]. cbn [fst snd] in *. destruct IH as [IH1 IH2]. split; [ rewrite putle64_ok, IH1; reflexivity | ].
  rewrite IH2. rewrite <- C, E. reflexivity.
Qed.
Lemma len_concat : forall l, length (concat (map (bytes_le 8) l)) = (8 * length l)%nat.
Proof. intros l. induction l as [ | x l IH]; [ reflexivity | ]. cbn [map concat length]. rewrite app_length, IH. unfold bytes_le. rewrite map_length, seq_length. lia. Qed.
Lemma numbers_length : forall k rng, length (gnums k rng) = k.
Proof. intros k. induction k as [ | k IH]; intros rng; [ reflexivity | ]. cbn [gnums length]. rewrite IH. reflexivity. Qed.
Lemma numbers_lt : forall k rng, Forall (fun r => r < 2 ^ 64) (gnums k rng).
Proof.
  intros k. induction k as [ | k IH]; intros rng; [ constructor | ]. cbn [gnums]. constructor; [ | apply IH ]. destruct rng as [s0 s1]. cbn [rngrandnum snd]. apply N.mod_lt. discriminate.
Qed.
Lemma numbers_snoc : forall k rng, gnums (S k) rng = gnums k rng ++ [snd (rngrandnum (Nat.iter k (fun s => fst (rngrandnum s)) rng))].
Proof.
  intros k. induction k as [ | k IH]; intros rng; [ reflexivity | ]. change (gnums (S (S k)) rng) with (snd (rngrandnum rng) :: gnums (S k) (fst (rngrandnum rng))). rewrite IH.
  cbn [gnums app]. do 2 f_equal. f_equal. f_equal. f_equal. clear. induction k as [ | k IH]; [ reflexivity | ]. cbn [Nat.iter nat_rect] in *. unfold Nat.iter in *. cbn [nat_rect]. rewrite IH. reflexivity.
Qed.
Lemma bytes_form : forall rng n, snd (rngrandbytes rng n)
  = concat (map (bytes_le 8) (gnums (n / 8 - 8) rng)) ++ bytes_le (n - 8 * (n / 8 - 8)) (snd (rngrandnum (Nat.iter (n / 8 - 8) (fun s => fst (rngrandnum s)) rng))).
Proof.
  intros rng n. unfold rngrandbytes. destruct (word_ok (n / 8 - 8) rng) as [H1 H2]. destruct (wordloop (n / 8 - 8) rng) as [rng' front]. cbn [fst snd] in *. subst rng'.
  destruct (rngrandnum (Nat.iter _ _ rng)) as [rng2 r]. cbn [fst snd]. rewrite tail_ok, H1. reflexivity.
Qed.
(* C103: the bytes are those of the numbers of the generator, lowest first, as far as the first eight bytes of the last part.
   Missing: all the bytes of the buffer (C103_zeros_refuted). *)
Theorem C103_bytes_partial : forall rng n, length (snd (rngrandbytes rng n)) = n /\
  firstn (8 * (n / 8 - 8) + 8) (snd (rngrandbytes rng n)) = firstn n (concat (map (bytes_le 8) (numbers (n / 8 - 8 + 1) rng))).
Proof.
  intros rng n. rewrite gnums_eq. assert (D : (8 * (n / 8) <= n)%nat) by (apply Nat.mul_div_le; lia). rewrite bytes_form. set (k := (n / 8 - 8)%nat). assert (Dk : (8 * k <= n)%nat) by (unfold k; lia).
  split.
  - rewrite app_length, len_concat, numbers_length. unfold bytes_le. rewrite map_length, seq_length. lia.
  - rewrite Nat.add_1_r, numbers_snoc. rewrite map_app, concat_app. cbn [map concat]. rewrite app_nil_r. generalize (snd (rngrandnum (Nat.iter k (fun s => fst (rngrandnum s)) rng))). intros r.
    assert (L : length (concat (map (bytes_le 8) (gnums k rng))) = (8 * k)%nat) by (rewrite len_concat, numbers_length; reflexivity).
    rewrite !firstn_app, L. rewrite (firstn_all2 (n := (8 * k + 8)%nat)) by lia. rewrite (firstn_all2 (n := n) (concat _)) by lia. f_equal.
    replace (8 * k + 8 - 8 * k)%nat with 8%nat by lia. unfold bytes_le. rewrite !firstn_map. f_equal.
    assert (F : forall a b, firstn a (seq 0 b) = seq 0 (Nat.min a b)).
    { clear. intros a b. destruct (Nat.le_gt_cases a b) as [H | H].
      - rewrite Nat.min_l by lia. replace b with (a + (b - a))%nat by lia. rewrite seq_app, firstn_app, seq_length, Nat.sub_diag. cbn [firstn]. rewrite app_nil_r. apply firstn_all2. rewrite seq_length. lia.
      - rewrite Nat.min_r by lia. apply firstn_all2. rewrite seq_length. lia. }
    rewrite !F. f_equal. lia.
Qed.
(* C103, refuted: whatever the generator, the bytes of the last part behind its first eight are 0; in a buffer of 9 to 71
   bytes, all bytes but the first eight *)
Theorem C103_zeros_refuted : forall rng n j, (8 * (n / 8 - 8) + 8 <= j < n)%nat -> nth_error (snd (rngrandbytes rng n)) j = Some 0.
Proof.
  intros rng n j H. rewrite bytes_form. set (k := (n / 8 - 8)%nat) in *.
  assert (L : length (concat (map (bytes_le 8) (gnums k rng))) = (8 * k)%nat) by (rewrite len_concat, numbers_length; reflexivity).
  rewrite nth_error_app2 by lia. rewrite L.
  assert (R : snd (rngrandnum (Nat.iter k (fun s => fst (rngrandnum s)) rng)) < 2 ^ 64).
  { destruct (Nat.iter k (fun s => fst (rngrandnum s)) rng) as [s0 s1]. cbn [rngrandnum snd]. apply N.mod_lt. discriminate. }
  revert R. generalize (snd (rngrandnum (Nat.iter k (fun s => fst (rngrandnum s)) rng))). intros r R. unfold bytes_le.
  rewrite nth_error_map. rewrite (nth_error_nth' _ O) by (rewrite seq_length; lia). rewrite seq_nth by lia. cbn [option_map Nat.add]. f_equal.
  rewrite N.div_small; [ reflexivity | ]. eapply N.lt_le_trans; [ exact R | ]. change (2 ^ 64) with (256 ^ 8). apply N.pow_le_mono_r; [ discriminate | ]. lia.
Qed.

Lemma draw_ok : forall fuel rng max span rng' v, (0 <= max)%Z -> draw fuel rng max span = Some (rng', v) -> (0 <= v)%Z.
Proof.
  intros fuel. induction fuel as [ | fuel IH]; intros rng max span rng' v M E; [ discriminate E | ]. cbn [draw] in E. destruct (rngrandnum rng) as [rng2 r]. cbv zeta in E.
  destruct (accepted max span (Z.of_N r mod (max + 1))).
  - injection E as <- <-. apply Z.mod_pos_bound. lia.
  - exact (IH _ _ _ _ _ M E).
Qed.
(* C104: a number in a range is not below its start and is below its end *)
Theorem C104_range : forall fuel rng max lo hi rng' v, (0 <= max)%Z -> (lo < hi)%Z -> rngrand fuel rng max lo hi = Some (rng', v) -> (lo <= v < hi)%Z.
Proof.
  intros fuel rng max lo hi rng' v M H E. unfold rngrand in E. destruct (Z.eqb_spec (Z.abs (hi - lo)) 0); [ discriminate E | ].
  destruct (draw fuel rng max (Z.abs (hi - lo))) as [[rng2 val] | ]; [ | discriminate E ]. injection E as <- <-.
  assert (B := Z.mod_pos_bound val (Z.abs (hi - lo)) ltac:(lia)). lia.
Qed.
(* C104, refuted: of the values that the loop lets through, one more gives the start of the range than any other number *)
Lemma seq_block : forall span r q, (r < span)%nat -> length (filter (fun v => (v mod span =? r)%nat) (seq 0 (q * span))) = q.
Proof.
  intros span r q H. induction q as [ | q IH]; [ reflexivity | ]. cbn [Nat.mul]. rewrite Nat.add_comm, seq_app, filter_app, app_length, IH. cbn [Nat.add].
  assert (S : forall m, (m <= span)%nat -> length (filter (fun v => (v mod span =? r)%nat) (seq (q * span) m)) = if (r <? m)%nat then 1%nat else 0%nat).
  { intros m. induction m as [ | m IHm]; intros Hm; [ reflexivity | ]. rewrite seq_S, filter_app, app_length, IHm by lia. cbn [filter].
    assert (V : ((q * span + m) mod span = m)%nat) by (rewrite Nat.add_comm, Nat.mod_add by lia; apply Nat.mod_small; lia). rewrite V.
    destruct (Nat.ltb_spec r m), (Nat.ltb_spec r (S m)), (Nat.eqb_spec m r); cbn [length]; lia. }
  rewrite S by lia. rewrite (proj2 (Nat.ltb_lt _ _)) by exact H. lia.
Qed.
Theorem C104_uniform_refuted : forall max span r, (2 <= span)%nat -> (r < span)%nat ->
  length (filter (fun v => accepted (Z.of_nat max) (Z.of_nat span) (Z.of_nat v) && (v mod span =? r)%nat) (seq 0 (S max)))
    = (max / span + if (r =? 0)%nat then 1 else 0)%nat.
Proof.
  intros max span r Hs Hr. assert (D : (span * (max / span) <= max)%nat) by (apply Nat.mul_div_le; lia).
  set (q := (max / span)%nat) in *. replace (S max) with (q * span + S (max - q * span))%nat by lia. rewrite seq_app, filter_app, app_length. cbn [Nat.add].
  assert (A : forall v, accepted (Z.of_nat max) (Z.of_nat span) (Z.of_nat v) = (v <=? q * span)%nat).
  { intros v. unfold accepted. rewrite <- Nat2Z.inj_div. fold q. rewrite <- Nat2Z.inj_mul. destruct (Nat.leb_spec v (q * span)), (Z.ltb_spec (Z.of_nat (q * span)) (Z.of_nat v)); try reflexivity; lia. }
  assert (F1 : forall l, Forall (fun v => (v <= q * span)%nat) l ->
    filter (fun v => accepted (Z.of_nat max) (Z.of_nat span) (Z.of_nat v) && (v mod span =? r)%nat) l = filter (fun v => (v mod span =? r)%nat) l).
  { intros l F. apply filter_ext_in. intros v I. rewrite Forall_forall in F. rewrite A, (proj2 (Nat.leb_le _ _)) by (apply F; exact I). reflexivity. }
  rewrite F1 by (apply Forall_forall; intros v I; apply in_seq in I; lia). rewrite seq_block by exact Hr. f_equal. cbn [seq filter]. rewrite A, (proj2 (Nat.leb_le _ _)) by lia.
  rewrite Nat.mod_mul by lia. cbn [andb].
  assert (F2 : filter (fun v => accepted (Z.of_nat max) (Z.of_nat span) (Z.of_nat v) && (v mod span =? r)%nat) (seq (S (q * span)) (max - q * span)) = []).
  { assert (G : forall l, Forall (fun v => (q * span < v)%nat) l -> filter (fun v => accepted (Z.of_nat max) (Z.of_nat span) (Z.of_nat v) && (v mod span =? r)%nat) l = []).
    { intros l F. induction F as [ | v l H F IH]; [ reflexivity | ]. cbn [filter]. rewrite A, (proj2 (Nat.leb_gt _ _)) by exact H. exact IH. }
    apply G. apply Forall_forall. intros v I. apply in_seq in I. lia. }
  rewrite F2. destruct (Nat.eqb_spec 0 r), (Nat.eqb_spec r 0); try lia; reflexivity.
Qed.

(* C105: the same seed gives the same numbers; refuted: the upper half of the seed does not matter *)
Theorem C105_seed_refuted : forall seed k, (forall a b, a < 2 ^ 16 -> b < 2 ^ 16 -> a <> b -> mksrng a <> mksrng b) /\
  numbers k (mksrng seed) = numbers k (mksrng (seed mod 2 ^ 16)).
Proof.
  assert (M : forall x, mksrng x = (x mod 2 ^ 16, x mod 2 ^ 16)).
  { intros x. unfold mksrng. change (N.shiftr 0xffff0000 16) with (N.ones 16). change 0xffff with (N.ones 16). rewrite N.land_ones. reflexivity. }
  intros seed k. rewrite !gnums_eq. split.
  - intros a b Ha Hb D E. rewrite !M, !N.mod_small in E by assumption. injection E as E. contradiction.
  - rewrite !M, N.mod_mod by discriminate. reflexivity.
Qed.
(* C105, refuted: the seed 0, and every multiple of 2^16, gives only zeros *)
Theorem C105_zero_refuted : forall k m, numbers k (mksrng (m * 2 ^ 16)) = repeat 0 k.
Proof.
  intros k m. destruct (C105_seed_refuted (m * 2 ^ 16) k) as [_ ->]. rewrite N.mod_mul by discriminate. change (mksrng 0) with (0, 0). rewrite gnums_eq.
  induction k as [ | k IH]; [ reflexivity | ]. cbn [gnums repeat]. change (rngrandnum (0, 0)) with ((0, 0), 0). cbn [fst snd]. rewrite IH. reflexivity.
Qed.

Example C103_met : skipn 8 (snd (rngrandbytes (2 ^ 60 + 5, 77) 12)) = [0; 0; 0; 0] /\ firstn 2 (snd (rngrandbytes (2 ^ 60 + 5, 77) 12)) = [82; 0].
Proof. split; vm_compute; reflexivity. Qed.
Example C104_met : (exists rng, rngrand 3 (12345, 678) (2 ^ 31 - 1) (-5) 10 = Some (rng, -2)%Z) /\ accepted 7 3 6 = true /\ accepted 7 3 7 = false.
Proof. split; [ eexists; vm_compute; reflexivity | split; reflexivity ]. Qed.
Example C105_met : mksrng 0x12345678 = mksrng 0x5678 /\ numbers 2 (mksrng 1) = [2; 36028797018963968].
Proof. split; vm_compute; reflexivity. Qed.
Print Assumptions C103_generator.
Print Assumptions C103_bytes_partial.
Print Assumptions C103_zeros_refuted.
Print Assumptions C104_range.
Print Assumptions C104_uniform_refuted.
Print Assumptions C105_seed_refuted.
Print Assumptions C105_zero_refuted.
