(* C89-C92: the digests of lib/crypto are those of the standards, for messages given in any pieces, and so is HMAC. *)
From Verif Require Import Base ListX Hash_Spec Hash_Model Hash_Steps Hash_Sha Hash_Sha1 Hash_Sha512 Hash_Keccak Hash_Stream.
From Coq Require Import NArith.
Open Scope N_scope.

(* ---- the end of a message and the bytes of a digest ---- *)
Lemma tobyte_shift : forall v k, tobyte (N.shiftr v k) = (v / 2 ^ k) mod 256.
Proof. intros. unfold tobyte. rewrite N.shiftr_div_pow2. reflexivity. Qed.
Lemma tobyte_lt : forall v, is_byte (tobyte v).
Proof. intros. apply N.mod_lt. discriminate. Qed.
Lemma bytes_le_byte : forall n v, Forall is_byte (bytes_le n v).
Proof. intros. apply Forall_forall. intros b H. apply in_map_iff in H. destruct H as (i & <- & _). apply N.mod_lt. discriminate. Qed.
Lemma bytes_be_byte : forall n v, Forall is_byte (bytes_be n v).
Proof. intros. apply Forall_rev, bytes_le_byte. Qed.
Lemma pack4 : forall v, pack_sha256 v = bytes_be 4 v.
Proof. intros. unfold pack_sha256. rewrite !tobyte_shift. reflexivity. Qed.
Lemma pack8 : forall v, pack_sha512 v = bytes_be 8 v.
Proof. intros. unfold pack_sha512. rewrite !tobyte_shift. reflexivity. Qed.
Lemma le4 : forall v, [tobyte (N.shiftr v 0); tobyte (N.shiftr v 8); tobyte (N.shiftr v 16); tobyte (N.shiftr v 24)] = bytes_le 4 v.
Proof. intros. rewrite !tobyte_shift. reflexivity. Qed.
Lemma size_le_ok : forall n, size_le n = bytes_le 8 ((8 * n) mod 2 ^ 64).
Proof. intros. unfold size_le. rewrite !tobyte_shift. rewrite (N.mul_comm n). reflexivity. Qed.
Lemma size_be_ok : forall n, size_be n = bytes_be 8 ((8 * n) mod 2 ^ 64).
Proof. intros. unfold size_be. rewrite !tobyte_shift. rewrite (N.mul_comm n). reflexivity. Qed.
Lemma small8 : forall n, n < 2 ^ 61 -> (8 * n) mod 2 ^ 64 = 8 * n.
Proof. intros n H. apply N.mod_small. change (2 ^ 64) with (8 * 2 ^ 61). lia. Qed.
Lemma bytes16 : forall v, v < 2 ^ 64 -> bytes_be 16 v = repeat 0 8 ++ bytes_be 8 v.
Proof.
  intros v H. unfold bytes_be, bytes_le. change (seq 0 16) with (seq 0 8 ++ seq 8 8). rewrite map_app, rev_app_distr. f_equal.
  rewrite (map_ext_in _ (fun _ => 0)); [ reflexivity | ]. intros i Hi. apply in_seq in Hi. rewrite N.div_small; [ reflexivity | ].
  apply N.lt_le_trans with (1 := H). change (2 ^ 64) with (256 ^ 8). apply N.pow_le_mono_r; lia.
Qed.
Lemma md5_out : forall s, digest_md5 s = (fun '(a, b, c, d) => concat (map (bytes_le 4) [a; b; c; d])) s.
Proof. intros [[[a b] c] d]. cbn [map concat]. rewrite <- !le4. reflexivity. Qed.
Lemma be4 : forall v, [tobyte (N.shiftr v 24); tobyte (N.shiftr v 16); tobyte (N.shiftr v 8); tobyte (N.shiftr v 0)] = bytes_be 4 v.
Proof. exact pack4. Qed.
Lemma sha1_out : forall s, digest_sha1 s = (fun '(a, b, c, d, e) => concat (map (bytes_be 4) [a; b; c; d; e])) s.
Proof. intros [[[[a b] c] d] e]. cbn [map concat]. rewrite <- !be4. reflexivity. Qed.
Lemma sha256_out : forall s, digest_sha256 s = sha2_out 32 32 s.
Proof. intros [[[[[[[a b] c] d] e] f] g] h]. unfold digest_sha256, sha2_out. rewrite !pack4. reflexivity. Qed.
Lemma sha224_out : forall s, digest_sha224 s = sha2_out 32 28 s.
Proof. intros [[[[[[[a b] c] d] e] f] g] h]. unfold digest_sha224, sha2_out. rewrite !pack4. reflexivity. Qed.
Lemma sha512_out : forall s, digest_sha512 s = sha2_out 64 64 s.
Proof. intros [[[[[[[a b] c] d] e] f] g] h]. unfold digest_sha512, sha2_out. rewrite !pack8. reflexivity. Qed.
Lemma sha384_out : forall s, digest_sha384 s = sha2_out 64 48 s.
Proof. intros [[[[[[[a b] c] d] e] f] g] h]. unfold digest_sha384, sha2_out. rewrite !pack8. reflexivity. Qed.
Lemma concat_bytes : forall f (l : list N), (forall v, Forall is_byte (f v)) -> Forall is_byte (concat (map f l)).
Proof. intros f l H. induction l; cbn; [ constructor | apply Forall_app; split; [ apply H | assumption ] ]. Qed.
Lemma md5_bytes : forall s, Forall is_byte ((fun '(a, b, c, d) => concat (map (bytes_le 4) [a; b; c; d])) s).
Proof. intros [[[a b] c] d]. apply concat_bytes. intros. apply bytes_le_byte. Qed.
Lemma sha1_bytes : forall s, Forall is_byte ((fun '(a, b, c, d, e) => concat (map (bytes_be 4) [a; b; c; d; e])) s).
Proof. intros [[[[a b] c] d] e]. apply concat_bytes. intros. apply bytes_be_byte. Qed.
Lemma sha2_bytes : forall w n s, Forall is_byte (sha2_out w n s).
Proof. intros w n [[[[[[[a b] c] d] e] f] g] h]. apply Forall_firstn, concat_bytes. intros. apply bytes_be_byte. Qed.
Lemma iv256 : eight (map (frac_sqrt 32) (firstn 8 primes)) = (0x6a09e667, 0xbb67ae85, 0x3c6ef372, 0xa54ff53a, 0x510e527f, 0x9b05688c, 0x1f83d9ab, 0x5be0cd19).
Proof. vm_compute. reflexivity. Qed.
Lemma iv224 : eight (map (fun p => frac_sqrt 64 p mod 2 ^ 32) (firstn 8 (skipn 8 primes)))
  = (0xc1059ed8, 0x367cd507, 0x3070dd17, 0xf70e5939, 0xffc00b31, 0x68581511, 0x64f98fa7, 0xbefa4fa4).
Proof. vm_compute. reflexivity. Qed.
Lemma iv512 : eight (map (frac_sqrt 64) (firstn 8 primes)) = (0x6a09e667f3bcc908, 0xbb67ae8584caa73b, 0x3c6ef372fe94f82b, 0xa54ff53a5f1d36f1,
                 0x510e527fade682d1, 0x9b05688c2b3e6c1f, 0x1f83d9abfb41bd6b, 0x5be0cd19137e2179).
Proof. vm_compute. reflexivity. Qed.
Lemma iv384 : eight (map (frac_sqrt 64) (firstn 8 (skipn 8 primes))) = (0xCBBB9D5DC1059ED8, 0x629A292A367CD507, 0x9159015A3070DD17, 0x152FECD8F70E5939,
                 0x67332667FFC00B31, 0x8EB44A8768581511, 0xDB0C2E0D64F98FA7, 0x47B5481DBEFA4FA4).
Proof. vm_compute. reflexivity. Qed.

(* ---- what an implementation of the trait hash does ---- *)
Definition good (h : impl) (H : list N -> list N) : Prop :=
  (Hashsz h <= Blocksz h)%nat /\ (forall m, length (H m) = Hashsz h /\ Forall is_byte (H m)) /\
  exists I : hst (val h) -> list N -> Prop,
    (forall st, length (tail st) = Blocksz h -> I (init h st) []) /\
    (forall st m d, I st m -> N.of_nat (length (m ++ d)) < 2 ^ 61 -> exists st', addto h st d = Some st' /\ I st' (m ++ d)) /\
    (forall st m r, I st m -> Forall is_byte m -> (Hashsz h <= length r)%nat ->
       exists st', fin h st r = Some (st', H m ++ skipn (Hashsz h) r) /\ length (tail st') = Blocksz h) /\
    (forall st m r, I st m -> Forall is_byte m -> (length r < Hashsz h)%nat -> fin h st r = None).
Lemma fold_steps : forall {X} (step compress : X -> list N -> X) B l x, (forall x blk, Forall is_byte blk -> length blk = B -> step x blk = compress x blk) ->
  Forall (fun c => Forall is_byte c /\ length c = B) l -> fold_left step l x = fold_left compress l x.
Proof.
  intros X step compress B l. induction l as [ | c l IH]; intros x E F; cbn [fold_left]; [ reflexivity | ].
  inversion F as [ | ? ? [F1 F2] F3]; subst. rewrite E by (try assumption; reflexivity). apply IH; assumption.
Qed.
Lemma good_mkhash : forall X B hsz (x0 x0' : X) step bymod L size digest enc compress out,
  (L + 1 < B)%nat -> (8 <= L)%nat -> (hsz <= B)%nat -> (forall n, length (size n) = 8%nat) ->
  (forall n, n < 2 ^ 61 -> enc L (8 * n) = repeat 0 (L - 8) ++ size n) -> (forall n v, Forall is_byte (enc n v)) ->
  (forall x blk, Forall is_byte blk -> length blk = B -> step x blk = compress x blk) -> x0' = x0 ->
  (forall s, digest s = out s) -> (forall s, length (out s) = hsz) -> (forall s, Forall is_byte (out s)) ->
  good (mkhash B hsz x0 step bymod L size digest) (hash B L enc compress x0' out).
Proof.
  intros X B hsz x0 x0' step bymod L size digest enc compress out H1 H2 H3 H4 H5 H6 H7 -> H8 H9 H10.
  split; [ exact H3 | ]. split; [ intros m; split; [ apply H9 | apply H10 ] | ].
  exists (Inv B step x0). cbn [init addto fin mkhash val Blocksz Hashsz tail].
  assert (K : forall st m, Inv B step x0 st m -> Forall is_byte m -> digest (x (lastblocks B step L size st)) = hash B L enc compress x0 out m
    /\ length (tail (lastblocks B step L size st)) = B).
  { intros st m Hi F. assert (Hi2 := Hi). destruct Hi2 as (c & rr & j & k & _ & _ & _ & _ & _ & _ & El & Eb).
    destruct (lastblocks_ok B step x0 L enc size st m) as [E1 E2]; try assumption; [ apply H4 | rewrite El in *; apply H5; exact Eb | ].
    split; [ | exact E2 ]. rewrite H8, E1. unfold hash. f_equal. apply fold_steps with (B := B); [ exact H7 | ].
    apply chunks_forall; [ lia | ]. unfold pad. rewrite !Forall_app. repeat split; try assumption.
    - repeat constructor.
    - apply Forall_forall. intros v Hv. apply repeat_spec in Hv. subst v. reflexivity.
    - apply H6. }
  repeat split.
  - intros st Hl. apply Inv_init; [ lia | exact Hl ].
  - intros st m d Hi Hl. apply hadd_ok; try assumption. lia.
  - intros st m r Hi F Hr. destruct (K st m Hi F) as [E1 E2]. eexists. split; [ | exact E2 ].
    rewrite E1. unfold putdigest. replace (length (hash B L enc compress x0 out m)) with hsz by (symmetry; apply H9).
    rewrite (proj2 (Nat.leb_le _ _) Hr). reflexivity.
  - intros st m r Hi F Hr. destruct (K st m Hi F) as [E1 E2]. rewrite E1. unfold putdigest.
    replace (length (hash B L enc compress x0 out m)) with hsz by (symmetry; apply H9). rewrite (proj2 (Nat.leb_gt _ _) Hr). reflexivity.
Qed.
Lemma len_le : forall n v, length (bytes_le n v) = n.
Proof. intros. unfold bytes_le. rewrite map_length. apply seq_length. Qed.
Lemma len_be : forall n v, length (bytes_be n v) = n.
Proof. intros. unfold bytes_be. rewrite rev_length. apply len_le. Qed.
Lemma enc8 : forall n, n < 2 ^ 61 -> bytes_be 8 (8 * n) = repeat 0 (8 - 8) ++ size_be n.
Proof. intros n H. rewrite size_be_ok, small8 by exact H. reflexivity. Qed.
Lemma enc16 : forall n, n < 2 ^ 61 -> bytes_be 16 (8 * n) = repeat 0 (16 - 8) ++ size_be n.
Proof. intros n H. rewrite size_be_ok, small8 by exact H. apply bytes16. change (2 ^ 64) with (8 * 2 ^ 61). lia. Qed.
Lemma sha2_length : forall w n s, (n <= 8 * N.to_nat (w / 8))%nat -> length (sha2_out w n s) = n.
Proof.
  intros w n [[[[[[[a b] c] d] e] f] g] h] H. unfold sha2_out. rewrite firstn_length.
  cbn [map concat]. rewrite !app_length, !len_be. cbn [length]. lia.
Qed.
Definition standard : list (impl * (list N -> list N)) :=
  [(Hash_Model.md5, Hash_Spec.md5); (Hash_Model.sha1, Hash_Spec.sha1); (Hash_Model.sha224, Hash_Spec.sha224);
   (Hash_Model.sha256, Hash_Spec.sha256); (Hash_Model.sha384, Hash_Spec.sha384); (Hash_Model.sha512, Hash_Spec.sha512)].
Lemma all_good : forall h H, In (h, H) standard -> good h H.
Proof.
  intros h H Hin. cbn [standard In] in Hin.
  repeat (destruct Hin as [E | Hin]; [ injection E as <- <- | ]); [ .. | destruct Hin ].
  - apply good_mkhash; [ lia | lia | lia | intros; reflexivity | .. ].
    + intros n Hn. rewrite size_le_ok. reflexivity.
    + intros n v. apply bytes_le_byte.
    + intros. apply step_md5_ok; assumption.
    + reflexivity.
    + intros. apply md5_out.
    + intros [[[a b] c] d]. reflexivity.
    + intros. apply md5_bytes.
  - apply good_mkhash; [ lia | lia | lia | intros; reflexivity | .. ].
    + apply enc8.
    + intros n v. apply bytes_be_byte.
    + intros. apply step_sha1_ok; assumption.
    + reflexivity.
    + intros. apply sha1_out.
    + intros [[[[a b] c] d] e]. reflexivity.
    + intros. apply sha1_bytes.
  - apply good_mkhash; [ lia | lia | lia | intros; reflexivity | .. ].
    + apply enc8.
    + intros n v. apply bytes_be_byte.
    + intros. apply step_sha256_ok; assumption.
    + apply iv224.
    + intros. apply sha224_out.
    + intros. apply sha2_length. vm_compute. lia.
    + intros. apply sha2_bytes.
  - apply good_mkhash; [ lia | lia | lia | intros; reflexivity | .. ].
    + apply enc8.
    + intros n v. apply bytes_be_byte.
    + intros. apply step_sha256_ok; assumption.
    + apply iv256.
    + intros. apply sha256_out.
    + intros. apply sha2_length. vm_compute. lia.
    + intros. apply sha2_bytes.
  - apply good_mkhash; [ lia | lia | lia | intros; reflexivity | .. ].
    + apply enc16.
    + intros n v. apply bytes_be_byte.
    + intros. apply step_sha512_ok; assumption.
    + apply iv384.
    + intros. apply sha384_out.
    + intros. apply sha2_length. vm_compute. lia.
    + intros. apply sha2_bytes.
  - apply good_mkhash; [ lia | lia | lia | intros; reflexivity | .. ].
    + apply enc16.
    + intros n v. apply bytes_be_byte.
    + intros. apply step_sha512_ok; assumption.
    + apply iv512.
    + intros. apply sha512_out.
    + intros. apply sha2_length. vm_compute. lia.
    + intros. apply sha2_bytes.
Qed.
(* ---- Keccak ---- *)
Lemma putle_ok : forall n v, putle n v = bytes_le n v.
Proof.
  intros. unfold putle, bytes_le. apply map_ext. intros i. rewrite tobyte_shift. do 2 f_equal. rewrite N.pow_mul_r. reflexivity.
Qed.
Lemma fold_steps_in : forall {X} (P : X -> Prop) (step compress : X -> list N -> X) B l x,
  (forall x blk, P x -> length blk = B -> step x blk = compress x blk) -> (forall x blk, P (compress x blk)) ->
  P x -> Forall (fun c => Forall is_byte c /\ length c = B) l -> fold_left step l x = fold_left compress l x /\ P (fold_left compress l x).
Proof.
  intros X P step compress B l. induction l as [ | c l IH]; intros x E K Hx F; cbn [fold_left]; [ split; [ reflexivity | exact Hx ] | ].
  inversion F as [ | ? ? [F1 F2] F3]; subst. rewrite E by (try assumption; reflexivity). apply IH; try assumption. apply K.
Qed.
Lemma fold_absorb : forall B l x, In B [144; 136; 104; 72]%nat -> length x = 25%nat -> Forall (fun c => Forall is_byte c /\ length c = B) l ->
  fold_left step_keccak l x = fold_left absorb l x /\ length (fold_left absorb l x) = 25%nat.
Proof.
  intros B l x HB L F. apply (fold_steps_in (fun x => length x = 25%nat) step_keccak absorb B l x); try assumption.
  - intros y blk Ly Lb. apply step_keccak_ok; [ exact Ly | rewrite Lb; exact HB ].
  - intros. apply absorb_length.
Qed.
Lemma pad101_bytes : forall r m, Forall is_byte m -> Forall is_byte (pad101 r m).
Proof.
  intros r m F. unfold pad101. assert (R : forall n, Forall is_byte (m ++ [1] ++ repeat 0 n ++ [128])).
  { intros n. rewrite !Forall_app. repeat split; try assumption; try (repeat constructor; reflexivity).
    apply Forall_forall. intros v Hv. apply repeat_spec in Hv. subst v. reflexivity. }
  destruct (r - length m mod r)%nat as [ | [ | n ] ]; try apply R.
  apply Forall_app. split; [ exact F | repeat constructor ].
Qed.
Lemma good_keccak : forall d digest, In d [28; 32; 48; 64]%nat ->
  (forall A, length A = 25%nat -> digest A = firstn d (concat (map (bytes_le 8) A))) ->
  good (mkkeccak (200 - 2 * d) d digest) (keccak d).
Proof.
  intros d digest Hd Hg. assert (HB : In (200 - 2 * d)%nat [144; 136; 104; 72]%nat).
  { destruct Hd as [<- | [<- | [<- | [<- | []]]]]; cbn; auto. }
  assert (Hr : (d <= 64)%nat) by (destruct Hd as [<- | [<- | [<- | [<- | []]]]]; lia).
  assert (Hl : forall A : list N, length A = 25%nat -> length (firstn d (concat (map (bytes_le 8) A))) = d).
  { intros A L. rewrite firstn_length. assert (W : forall A, length (concat (map (bytes_le 8) A)) = (8 * length A)%nat).
    { clear. intros A. induction A as [ | a A IH]; [ reflexivity | ]. cbn [map concat length]. rewrite app_length, len_le, IH. lia. }
    rewrite W, L. lia. }
  assert (Hf : forall m, Forall is_byte m -> fold_left step_keccak (chunks (200 - 2 * d) (pad101 (200 - 2 * d) m)) (repeat 0 25)
     = fold_left absorb (chunks (200 - 2 * d) (pad101 (200 - 2 * d) m)) (repeat 0 25) /\
     length (fold_left absorb (chunks (200 - 2 * d) (pad101 (200 - 2 * d) m)) (repeat 0 25)) = 25%nat).
  { intros m F. apply (fold_absorb (200 - 2 * d)); [ exact HB | reflexivity | ]. apply chunks_forall; [ lia | ]. apply pad101_bytes, F. }
  assert (La : forall l x, length x = 25%nat -> length (fold_left absorb l x) = 25%nat).
  { intros l. induction l as [ | c l IH]; intros x L; cbn [fold_left]; [ exact L | apply IH, absorb_length ]. }
  assert (Hk : forall m, length (keccak d m) = d) by (intros m; apply Hl, La; reflexivity).
  split; [ cbn [Hashsz Blocksz mkkeccak]; lia | ]. split.
  { intros m. split; [ apply Hk | ]. apply Forall_firstn, concat_bytes. intros. apply bytes_le_byte. }
  exists (Inv (200 - 2 * d) step_keccak (repeat 0 25)). unfold mkkeccak. cbn [init addto fin val Blocksz Hashsz].
  assert (K : forall st m, Inv (200 - 2 * d) step_keccak (repeat 0 25) st m -> Forall is_byte m ->
    digest (x (keccakfin (200 - 2 * d) st)) = keccak d m /\ length (tail (keccakfin (200 - 2 * d) st)) = (200 - 2 * d)%nat).
  { intros st m Hi F. destruct (keccakfin_ok (200 - 2 * d) (repeat 0 25) st m) as [E1 E2]; [ lia | exact Hi | ]. split; [ | exact E2 ].
    destruct (Hf m F) as [E3 E4]. rewrite E1, E3. apply Hg, E4. }
  repeat split.
  - intros st H. apply Inv_init; [ lia | exact H ].
  - intros st m dd Hi H. apply hadd_ok; try assumption. lia.
  - intros st m r Hi F H. destruct (K st m Hi F) as [E1 E2]. eexists. split; [ | exact E2 ].
    rewrite E1. unfold putdigest. rewrite Hk. rewrite (proj2 (Nat.leb_le _ _) H). reflexivity.
  - intros st m r Hi F H. destruct (K st m Hi F) as [E1 E2]. rewrite E1. unfold putdigest. rewrite Hk. rewrite (proj2 (Nat.leb_gt _ _) H). reflexivity.
Qed.
Definition keccaks : list (impl * (list N -> list N)) :=
  [(keccak224, keccak 28); (keccak256, keccak 32); (keccak384, keccak 48); (keccak512, keccak 64)].
Lemma keccaks_good : forall h H, In (h, H) keccaks -> good h H.
Proof.
  intros h H Hin. cbn [keccaks In] in Hin.
  repeat (destruct Hin as [E | Hin]; [ injection E as <- <- | ]); [ .. | destruct Hin ].
  - apply (good_keccak 28 digest_keccak224); [ cbn; auto | ]. intros A L. unfold digest_keccak224. rewrite !putle_ok. 
    destruct (list25 _ A L) as (x0 & x1 & x2 & x3 & x4 & x5 & x6 & x7 & x8 & x9 & x10 & x11 & x12 & x13 & x14 & x15 & x16 & x17 & x18 & x19 & x20 & x21 & x22 & x23 & x24 & ->). reflexivity.
  - apply (good_keccak 32 digest_keccak256); [ cbn; auto | ]. intros A L. unfold digest_keccak256.
    destruct (list25 _ A L) as (x0 & x1 & x2 & x3 & x4 & x5 & x6 & x7 & x8 & x9 & x10 & x11 & x12 & x13 & x14 & x15 & x16 & x17 & x18 & x19 & x20 & x21 & x22 & x23 & x24 & ->).
    cbn [seq map idx nth]. rewrite !putle_ok. reflexivity.
  - apply (good_keccak 48 digest_keccak384); [ cbn; auto | ]. intros A L. unfold digest_keccak384.
    destruct (list25 _ A L) as (x0 & x1 & x2 & x3 & x4 & x5 & x6 & x7 & x8 & x9 & x10 & x11 & x12 & x13 & x14 & x15 & x16 & x17 & x18 & x19 & x20 & x21 & x22 & x23 & x24 & ->).
    cbn [seq map idx nth]. rewrite !putle_ok. reflexivity.
  - apply (good_keccak 64 digest_keccak512); [ cbn; auto | ]. intros A L. unfold digest_keccak512.
    destruct (list25 _ A L) as (x0 & x1 & x2 & x3 & x4 & x5 & x6 & x7 & x8 & x9 & x10 & x11 & x12 & x13 & x14 & x15 & x16 & x17 & x18 & x19 & x20 & x21 & x22 & x23 & x24 & ->).
    cbn [seq map idx nth]. rewrite !putle_ok. reflexivity.
Qed.

(* ---- a message in pieces ---- *)
Lemma addall_ok : forall h (I : hst (val h) -> list N -> Prop),
  (forall st m d, I st m -> N.of_nat (length (m ++ d)) < 2 ^ 61 -> exists st', addto h st d = Some st' /\ I st' (m ++ d)) ->
  forall pieces st m, I st m -> N.of_nat (length (m ++ concat pieces)) < 2 ^ 61 -> exists st', addall h st pieces = Some st' /\ I st' (m ++ concat pieces).
Proof.
  intros h I A pieces. induction pieces as [ | p ps IH]; intros st m Hi Hl; cbn [addall concat] in *.
  - exists st. rewrite app_nil_r. split; [ reflexivity | exact Hi ].
  - destruct (A st m p Hi) as (st1 & E1 & H1). { clear - Hl. rewrite !app_length in *. lia. }
    rewrite E1. rewrite app_assoc in Hl |- *. apply IH; assumption.
Qed.
Lemma good_pieces : forall h H, good h H -> forall st pieces r,
  length (tail st) = Blocksz h -> Forall (Forall is_byte) pieces -> N.of_nat (length (concat pieces)) < 2 ^ 61 ->
  hashpieces h st pieces r = if (Hashsz h <=? length r)%nat then Some (H (concat pieces) ++ skipn (Hashsz h) r) else None.
Proof.
  intros h H (G1 & G2 & I & Gi & Ga & Gf & Gn) st pieces r Hl F Hn. unfold hashpieces.
  destruct (addall_ok h I Ga pieces (init h st) [] (Gi st Hl)) as (st1 & E1 & H1). { exact Hn. }
  cbn [app] in H1. rewrite E1.
  assert (Fc : Forall is_byte (concat pieces)). { clear - F. induction F; cbn; [ constructor | apply Forall_app; split; assumption ]. }
  destruct (Nat.leb_spec (Hashsz h) (length r)) as [Q | Q].
  - destruct (Gf st1 _ r H1 Fc Q) as (st2 & E2 & _). rewrite E2. reflexivity.
  - rewrite (Gn st1 _ r H1 Fc Q). reflexivity.
Qed.

(* C89: MD5, SHA-1, SHA-224, SHA-256, SHA-384 and SHA-512 of a message given in any pieces is what the standard says, at the
   start of the buffer, whatever the state held before *)
Theorem C89_digest : forall h H, In (h, H) [(Hash_Model.md5, Hash_Spec.md5); (Hash_Model.sha1, Hash_Spec.sha1);
    (Hash_Model.sha224, Hash_Spec.sha224); (Hash_Model.sha256, Hash_Spec.sha256); (Hash_Model.sha384, Hash_Spec.sha384);
    (Hash_Model.sha512, Hash_Spec.sha512)] ->
  forall st pieces r, length (tail st) = Blocksz h -> Forall (Forall is_byte) pieces -> N.of_nat (length (concat pieces)) < 2 ^ 61 ->
  hashpieces h st pieces r = if (Hashsz h <=? length r)%nat then Some (H (concat pieces) ++ skipn (Hashsz h) r) else None.
Proof. intros h H Hin. apply good_pieces, all_good, Hin. Qed.
Print Assumptions C89_digest.
Theorem C89_size : forall h H, In (h, H) [(Hash_Model.md5, Hash_Spec.md5); (Hash_Model.sha1, Hash_Spec.sha1);
    (Hash_Model.sha224, Hash_Spec.sha224); (Hash_Model.sha256, Hash_Spec.sha256); (Hash_Model.sha384, Hash_Spec.sha384);
    (Hash_Model.sha512, Hash_Spec.sha512)] ->
  In (Blocksz h, Hashsz h) [(64, 16); (64, 20); (64, 28); (64, 32); (128, 48); (128, 64)]%nat /\ forall m, length (H m) = Hashsz h.
Proof.
  intros h H Hin. split.
  - cbn [In] in Hin. repeat (destruct Hin as [E | Hin]; [ injection E as <- <-; cbn; auto 10 | ]). destruct Hin.
  - destruct (all_good h H Hin) as (_ & G & _). intros m. apply G.
Qed.
Print Assumptions C89_size.
Definition dirty {X} (x0 : X) (B : nat) : hst X := mkst x0 (repeat 0xAA B) 7.
Definition abc : list (list N) := [[0x61]; []; [0x62; 0x63]].
Example C89_met : length (tail (dirty (0, 0, 0, 0) 64)) = Blocksz Hash_Model.md5 /\ Forall (Forall is_byte) abc /\
  hashpieces Hash_Model.md5 (dirty (0, 0, 0, 0) 64) abc (repeat 7 17)
    = Some ([0x90; 0x01; 0x50; 0x98; 0x3c; 0xd2; 0x4f; 0xb0; 0xd6; 0x96; 0x3f; 0x7d; 0x28; 0xe1; 0x7f; 0x72] ++ [7]).
Proof. split; [ reflexivity | ]. split; [ repeat constructor; reflexivity | vm_compute; reflexivity ]. Qed.

(* C90: the Keccak digests, with the padding of the original submission, for a message given in any pieces *)
Theorem C90_keccak : forall h d, In (h, d) [(keccak224, 28); (keccak256, 32); (keccak384, 48); (keccak512, 64)]%nat ->
  forall st pieces r, length (tail st) = Blocksz h -> Forall (Forall is_byte) pieces -> N.of_nat (length (concat pieces)) < 2 ^ 61 ->
  hashpieces h st pieces r = if (d <=? length r)%nat then Some (keccak d (concat pieces) ++ skipn d r) else None.
Proof.
  intros h d Hin. assert (E : In (h, keccak d) keccaks /\ Hashsz h = d).
  { cbn [In] in Hin. repeat (destruct Hin as [E | Hin]; [ injection E as <- <-; split; [ cbn; auto 10 | reflexivity ] | ]). destruct Hin. }
  destruct E as [E <-]. apply good_pieces, keccaks_good, E.
Qed.
Print Assumptions C90_keccak.
Example C90_met : length (tail (dirty (repeat 5 25) 136)) = Blocksz keccak256 /\ Forall (Forall is_byte) [[1]; repeat 2 200] /\
  exists l, hashpieces keccak256 (dirty (repeat 5 25) 136) [[1]; repeat 2 200] (repeat 0 32) = Some l /\ length l = 32%nat.
Proof.
  assert (F : Forall (Forall is_byte) [[1]; repeat 2 200]) by (repeat constructor; reflexivity).
  repeat split; try exact F. eexists. split.
  - rewrite (C90_keccak keccak256 32) by (try exact F; cbn; auto; reflexivity). reflexivity.
  - rewrite app_length. destruct (keccaks_good keccak256 (keccak 32)) as (_ & G & _); [ cbn; auto | ]. rewrite (proj1 (G _)). reflexivity.
Qed.

(* ---- HMAC ---- *)
Lemma xor_bytes : forall c k, is_byte c -> Forall is_byte k -> Forall is_byte (map (N.lxor c) k).
Proof.
  intros c k Hc F. apply Forall_forall. intros b Hb. apply in_map_iff in Hb. destruct Hb as (v & <- & Hv). rewrite Forall_forall in F. specialize (F v Hv).
  unfold is_byte in *. destruct (N.eq_dec (N.lxor c v) 0) as [E | E]; [ rewrite E; reflexivity | ].
  change 256 with (2 ^ 8) in *. apply N.log2_lt_pow2; [ lia | ]. apply N.le_lt_trans with (1 := N.log2_lxor c v).
  apply N.max_lub_lt.
  - destruct (N.eq_dec c 0) as [-> | Q]; [ reflexivity | apply N.log2_lt_pow2; lia ].
  - destruct (N.eq_dec v 0) as [-> | Q]; [ reflexivity | apply N.log2_lt_pow2; lia ].
Qed.
Lemma zeros_bytes : forall n, Forall is_byte (repeat 0 n).
Proof. intros. apply Forall_forall. intros v Hv. apply repeat_spec in Hv. subst v. reflexivity. Qed.
Lemma good_hmac : forall h H, good h H -> (0 < Blocksz h <= 128)%nat -> forall hm key pieces dst,
  length (tail (inner hm)) = Blocksz h -> length (tail (outer hm)) = Blocksz h -> Forall is_byte key -> Forall (Forall is_byte) pieces -> Forall is_byte dst ->
  N.of_nat (length key) < 2 ^ 61 -> N.of_nat (length (concat pieces)) < 2 ^ 60 -> N.of_nat (length dst) < 2 ^ 60 ->
  (Hashsz h <= length dst)%nat ->
  let k := if (Blocksz h <? length key)%nat then H key else key in
  let k := k ++ repeat 0 (Blocksz h - length k) in
  hmacpieces h hm key pieces dst
    = Some (H (map (N.lxor 0x5c) k ++ H (map (N.lxor 0x36) k ++ concat pieces) ++ skipn (Hashsz h) dst) ++ skipn (Hashsz h) dst).
Proof.
  intros h H (G1 & G2 & I & Gi & Ga & Gf & Gn) HB hm key pieces dst Li Lo Fk Fp Fd Bk Bp Bd Hd k0 k.
  assert (Fc : Forall is_byte (concat pieces)). { clear - Fp. induction Fp; cbn; [ constructor | apply Forall_app; split; assumption ]. }
  assert (P60 : 2 ^ 61 = 2 ^ 60 + 2 ^ 60) by reflexivity. assert (P8 : 256 < 2 ^ 60) by reflexivity.
  assert (Fk0 : Forall is_byte k). { unfold k, k0. apply Forall_app. split; [ destruct (_ <? _)%nat; [ apply G2 | exact Fk ] | apply zeros_bytes ]. }
  assert (Lk : length k = Blocksz h).
  { unfold k, k0. rewrite app_length, repeat_length. destruct (Nat.ltb_spec (Blocksz h) (length key)) as [Q | Q]; [ rewrite (proj1 (G2 key)) | ]; lia. }
  assert (K : exists i, length (tail i) = Blocksz h /\ hmacinit h hm key
    = let ik := map (fun b => N.lxor b 0x36) k in let ok := map (fun b => N.lxor b 0x5c) k in
      match addto h (init h i) ik, addto h (init h (outer hm)) ok with Some i, Some o => Some (mkhmac i o) | _, _ => None end).
  { unfold hmacinit, k, k0. destruct (Nat.ltb_spec (Blocksz h) (length key)) as [Q | Q].
    - destruct (Ga (init h (inner hm)) [] key (Gi _ Li)) as (i & E1 & H1). { cbn [app]. exact Bk. }
      cbn [app] in H1. rewrite E1.
      assert (Lz : length (firstn (Hashsz h) (repeat 0 (Blocksz h))) = Hashsz h) by (rewrite firstn_length, repeat_length; lia).
      destruct (Gf i key (firstn (Hashsz h) (repeat 0 (Blocksz h))) H1 Fk) as (i2 & E2 & L2); [ lia | ]. rewrite E2.
      exists i2. split; [ exact L2 | ]. rewrite (skipn_all2 (firstn _ _)) by lia. rewrite app_nil_r.
      replace (skipn (Hashsz h) (repeat 0 (Blocksz h))) with (repeat 0 (Blocksz h - length (H key))); [ reflexivity | ].
      rewrite (proj1 (G2 key)). replace (Blocksz h) with (Hashsz h + (Blocksz h - Hashsz h))%nat at 2 by lia. rewrite repeat_app.
      rewrite skipn_app, repeat_length, Nat.sub_diag. rewrite skipn_all2 by (rewrite repeat_length; lia). reflexivity.
    - exists (inner hm). split; [ exact Li | ]. rewrite slcp_0 by (rewrite repeat_length; lia). cbn [option_map].
      replace (skipn (length key) (repeat 0 (Blocksz h))) with (repeat 0 (Blocksz h - length key)); [ reflexivity | ].
      replace (Blocksz h) with (length key + (Blocksz h - length key))%nat at 2 by lia. rewrite repeat_app.
      rewrite skipn_app, repeat_length, Nat.sub_diag. rewrite skipn_all2 by (rewrite repeat_length; lia). reflexivity. }
  destruct K as (i & Lti & Ki). unfold hmacpieces. rewrite Ki. cbv zeta. clear Ki.
  assert (X1 : forall c, map (fun b => N.lxor b c) k = map (N.lxor c) k) by (intros c; apply map_ext; intros b; apply N.lxor_comm).
  rewrite !X1. set (ik := map (N.lxor 0x36) k). set (ok := map (N.lxor 0x5c) k).
  assert (Fi : Forall is_byte ik) by (apply xor_bytes; [ reflexivity | exact Fk0 ]).
  assert (Fo : Forall is_byte ok) by (apply xor_bytes; [ reflexivity | exact Fk0 ]).
  assert (Lik : length ik = Blocksz h) by (unfold ik; rewrite map_length; exact Lk).
  assert (Lok : length ok = Blocksz h) by (unfold ok; rewrite map_length; exact Lk).
  clearbody ik ok. clear X1 Lk Fk0. clearbody k. 
  destruct (Ga (init h i) [] ik (Gi _ Lti)) as (i1 & E1 & H1). { cbn [app]. rewrite Lik. lia. }
  destruct (Ga (init h (outer hm)) [] ok (Gi _ Lo)) as (o1 & E2 & H2). { cbn [app]. rewrite Lok. lia. }
  rewrite E1, E2. cbn [app] in H1, H2.
  assert (A : forall ps im m, I im m -> N.of_nat (length (m ++ concat ps)) < 2 ^ 61 ->
    exists im', hmacaddall h (mkhmac im o1) ps = Some (mkhmac im' o1) /\ I im' (m ++ concat ps)).
  { clear - Ga. intros ps. induction ps as [ | p ps IH]; intros im m Hi Hl; cbn [hmacaddall concat] in *.
    - exists im. rewrite app_nil_r. split; [ reflexivity | exact Hi ].
    - unfold hmacadd. cbn [inner outer]. destruct (Ga im m p Hi) as (im1 & E & Hi1). { rewrite !app_length in *. lia. }
      rewrite E. cbn [option_map]. rewrite app_assoc in Hl |- *. apply IH; assumption. }
  destruct (A pieces i1 ik H1) as (i2 & E3 & H3). { rewrite app_length, Lik. lia. }
  rewrite E3. unfold hmacfin. cbn [inner outer].
  destruct (Gf i2 _ dst H3) as (i3 & E4 & _); [ apply Forall_app; split; assumption | exact Hd | ]. rewrite E4.
  assert (Hlen : length (H (ik ++ concat pieces)) = Hashsz h) by apply G2.
  destruct (Ga o1 ok (H (ik ++ concat pieces) ++ skipn (Hashsz h) dst) H2) as (o2 & E5 & H5).
  { rewrite !app_length, Hlen, skipn_length, Lok. lia. }
  rewrite E5.
  destruct (Gf o2 _ (H (ik ++ concat pieces) ++ skipn (Hashsz h) dst) H5) as (o3 & E6 & _).
  { rewrite !Forall_app. repeat split; [ exact Fo | apply G2 | apply Forall_skipn; exact Fd ]. }
  { rewrite app_length, Hlen. lia. }
  rewrite E6. cbn [option_map snd]. do 2 f_equal. rewrite skipn_app, Hlen, Nat.sub_diag. rewrite skipn_all2 by lia. reflexivity.
Qed.
(* C91: HMAC over the six functions, for a key of any length and a message in any pieces, when the buffer has the size of the digest *)
Theorem C91_hmac : forall h H, In (h, H) [(Hash_Model.md5, Hash_Spec.md5); (Hash_Model.sha1, Hash_Spec.sha1);
    (Hash_Model.sha224, Hash_Spec.sha224); (Hash_Model.sha256, Hash_Spec.sha256); (Hash_Model.sha384, Hash_Spec.sha384);
    (Hash_Model.sha512, Hash_Spec.sha512)] ->
  forall hm key pieces dst, length (tail (inner hm)) = Blocksz h -> length (tail (outer hm)) = Blocksz h ->
  Forall is_byte key -> Forall (Forall is_byte) pieces -> N.of_nat (length key) < 2 ^ 61 -> N.of_nat (length (concat pieces)) < 2 ^ 60 ->
  Forall is_byte dst -> length dst = Hashsz h ->
  hmacpieces h hm key pieces dst = Some (hmac (Blocksz h) H key (concat pieces)).
Proof.
  intros h H Hin hm key pieces dst Li Lo Fk Fp Bk Bp Fd Ld.
  destruct (C89_size h H Hin) as [S _].
  assert (B1 : (0 < Blocksz h <= 128 /\ Hashsz h <= 64)%nat).
  { cbn [In] in S. repeat (destruct S as [E | S]; [ injection E as E1 E2; rewrite <- E1, <- E2; lia | ]). destruct S. }
  rewrite (good_hmac h H (all_good h H Hin) (proj1 B1) hm key pieces dst); try assumption; try lia.
  - rewrite (skipn_all2 dst) by lia. rewrite !app_nil_r. reflexivity.
Qed.
Print Assumptions C91_hmac.
Definition hm0 : hmacst Hash_Model.md5 := @mkhmac Hash_Model.md5 (dirty (0, 0, 0, 0) 64) (dirty (1, 2, 3, 4) 64).
(* RFC 2202, test case 2: key Jefe, message what do ya want for nothing? *)
Definition jefe : list N := [0x4a; 0x65; 0x66; 0x65].
Definition nothing : list (list N) := [[0x77; 0x68; 0x61; 0x74; 0x20; 0x64; 0x6f; 0x20]; [0x79; 0x61; 0x20; 0x77; 0x61; 0x6e; 0x74; 0x20];
  [0x66; 0x6f; 0x72; 0x20; 0x6e; 0x6f; 0x74; 0x68; 0x69; 0x6e; 0x67; 0x3f]].
Example C91_met : length (tail (inner hm0)) = Blocksz Hash_Model.md5 /\ length (tail (outer hm0)) = Blocksz Hash_Model.md5 /\
  hmacpieces Hash_Model.md5 hm0 jefe nothing (repeat 0 16)
    = Some [0x75; 0x0c; 0x78; 0x3e; 0x6a; 0xb0; 0xb5; 0x03; 0xea; 0xa8; 0x6e; 0x31; 0x0a; 0x5d; 0xb7; 0x38].
Proof. split; [ reflexivity | ]. split; [ reflexivity | vm_compute; reflexivity ]. Qed.

(* C92: HMAC put at the start of a longer buffer.  The outer hash then also takes in the rest of the buffer. *)
Theorem C92_longer_partial : forall h H, In (h, H) [(Hash_Model.md5, Hash_Spec.md5); (Hash_Model.sha1, Hash_Spec.sha1);
    (Hash_Model.sha224, Hash_Spec.sha224); (Hash_Model.sha256, Hash_Spec.sha256); (Hash_Model.sha384, Hash_Spec.sha384);
    (Hash_Model.sha512, Hash_Spec.sha512)] ->
  forall hm key pieces dst, length (tail (inner hm)) = Blocksz h -> length (tail (outer hm)) = Blocksz h ->
  Forall is_byte key -> Forall (Forall is_byte) pieces -> N.of_nat (length key) < 2 ^ 61 -> N.of_nat (length (concat pieces)) < 2 ^ 60 ->
  Forall is_byte dst -> N.of_nat (length dst) < 2 ^ 60 -> (Hashsz h <= length dst)%nat ->
  exists out, hmacpieces h hm key pieces dst = Some (out ++ skipn (Hashsz h) dst) /\ length out = Hashsz h /\ Forall is_byte out.
Proof.
  intros h H Hin hm key pieces dst Li Lo Fk Fp Bk Bp Fd Bd Ld.
  destruct (C89_size h H Hin) as [S _].
  assert (B1 : (0 < Blocksz h <= 128 /\ Hashsz h <= 64)%nat).
  { cbn [In] in S. repeat (destruct S as [E | S]; [ injection E as E1 E2; rewrite <- E1, <- E2; lia | ]). destruct S. }
  eexists. split; [ apply (good_hmac h H (all_good h H Hin) (proj1 B1) hm key pieces dst); assumption | ].
  destruct (all_good h H Hin) as (_ & G & _). apply G.
Qed.
Print Assumptions C92_longer_partial.
Lemma some_inj : forall {A} (a b : A), Some a = Some b -> a = b.
Proof. intros A a b E. injection E as E. exact E. Qed.
Theorem C92_longer_refuted : exists hm key pieces dst out, length (tail (inner hm)) = Blocksz Hash_Model.md5 /\
  length (tail (outer hm)) = Blocksz Hash_Model.md5 /\ (Hashsz Hash_Model.md5 <= length dst)%nat /\
  hmacpieces Hash_Model.md5 hm key pieces dst = Some out /\ firstn (Hashsz Hash_Model.md5) out <> hmac 64 Hash_Spec.md5 key (concat pieces).
Proof.
  exists hm0, jefe, nothing, (repeat 0 17). eexists. split; [ reflexivity | ]. split; [ reflexivity | ]. split; [ cbn; lia | ].
  split; [ vm_compute; reflexivity | ].
  assert (E : Some (hmac 64 Hash_Spec.md5 jefe (concat nothing)) = Some [0x75; 0x0c; 0x78; 0x3e; 0x6a; 0xb0; 0xb5; 0x03; 0xea; 0xa8; 0x6e; 0x31; 0x0a; 0x5d; 0xb7; 0x38]).
  { rewrite <- (proj2 (proj2 C91_met)). symmetry. apply (C91_hmac Hash_Model.md5 Hash_Spec.md5); try reflexivity; [ left; reflexivity | .. ]; repeat constructor; reflexivity. }
  apply some_inj in E. rewrite E. discriminate.
Qed.
Print Assumptions C92_longer_refuted.
