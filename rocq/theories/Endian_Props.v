(* C33: fixed-width integer encoders and decoders, and byte swapping. *)
From Verif Require Import Base Word Endian_Model Endian_Spec Endian_Proofs.
Open Scope Z_scope.

(* The encoders and decoders of the package, by number of bytes. *)
Inductive putter : nat -> (list Z -> Z -> outcome (list Z)) -> (ity -> list Z -> outcome Z) -> bool -> Prop :=
| P_le8 : putter 1 putle8 getle8 false | P_le16 : putter 2 putle16 getle16 false
| P_le32 : putter 4 putle32 getle32 false | P_le64 : putter 8 putle64 getle64 false
| P_be8 : putter 1 putbe8 getbe8 true | P_be16 : putter 2 putbe16 getbe16 true
| P_be32 : putter 4 putbe32 getbe32 true | P_be64 : putter 8 putbe64 getbe64 true.

Lemma cast64_image n v : (n <= 8)%nat -> le_image n (cast uint64 v) = le_image n v.
Proof. intros H. apply le_image_mod. apply (cong_le _ 64); [lia|]. apply (cast_cong uint64). cbn; lia. Qed.

(* C33: an encoder of n bytes writes the n low bytes of the value at the front of the buffer, least (le) or most (be)
   significant first, and leaves the rest alone; it aborts on a buffer shorter than that. *)
Lemma put_bytes n put get be : putter n put get be -> forall buf v,
  (length buf < n)%nat /\ put buf v = Abort \/
  exists l, put buf v = Done ((if be then rev l else l) ++ skipn n buf) /\ low_bytes n v l.
Proof.
  intros P buf v.
  destruct (Nat.lt_ge_cases (length buf) n) as [H|H].
  - left. split; auto. inversion P; subst; unfold putle8, putle16, putle32, putle64, putbe8, putbe16, putbe32, putbe64; rewrite ?putle_spec, ?putbe_spec;
    match goal with |- context [(?a <=? ?b)%nat] => destruct (Nat.leb_spec a b); [lia|reflexivity] end.
  - right. exists (le_image n v). split; [|apply low_bytes_le_image]. inversion P; subst;
    unfold putle8, putle16, putle32, putle64, putbe8, putbe16, putbe32, putbe64; rewrite ?putle_spec, ?putbe_spec, cast64_image by lia;
    match goal with |- context [(?a <=? ?b)%nat] => destruct (Nat.leb_spec a b); [reflexivity|lia] end.
Qed.
Theorem C33_put_writes_low_bytes n put get be : putter n put get be -> forall buf v,
  (length buf < n)%nat /\ put buf v = Abort \/
  exists l, put buf v = Done ((if be then rev l else l) ++ skipn n buf) /\ low_bytes n v l.
Proof. exact (put_bytes n put get be). Qed.
Print Assumptions C33_put_writes_low_bytes.

(* C33: a decoder of n bytes, at a type of at least n bytes, is the positional value of the first n bytes, converted
   to that type; it aborts when there are fewer. *)
Lemma get_bytes n put get be : putter n put get be -> forall t buf, 8 * Z.of_nat n <= w t -> Forall isbyte buf ->
  get t buf = if (n <=? length buf)%nat then Done (cast t ((if be then big else little) (firstn n buf))) else Abort.
Proof.
  intros P t buf Hw Hb. inversion P; subst;
  [apply (getle_spec t 1)|apply (getle_spec t 2)|apply (getle_spec t 4)|apply (getle_spec t 8)
  |apply (getbe_spec t 1)|apply (getbe_spec t 2)|apply (getbe_spec t 4)|apply (getbe_spec t 8)]; auto; lia.
Qed.
Theorem C33_get_reads_value n put get be : putter n put get be -> forall t buf, 8 * Z.of_nat n <= w t -> Forall isbyte buf ->
  get t buf = if (n <=? length buf)%nat then Done (cast t ((if be then big else little) (firstn n buf))) else Abort.
Proof. exact (get_bytes n put get be). Qed.
Print Assumptions C33_get_reads_value.

(* C33: reading back what was written gives the value truncated to n bytes, for every value, and so the value itself
   when the type has exactly n bytes. *)
Lemma put_get n put get be : putter n put get be -> forall t buf v, 8 * Z.of_nat n <= w t -> Forall isbyte buf -> (n <= length buf)%nat ->
  exists buf', put buf v = Done buf' /\ get t buf' = Done (cast t (v mod 256 ^ Z.of_nat n)) /\
    (w t = 8 * Z.of_nat n -> cast t v = v -> get t buf' = Done v).
Proof.
  intros P t buf v Hw Hb Hl. destruct (put_bytes n put get be P buf v) as [[? _]|(l & E & (L1 & L2 & L3))]; [lia|].
  eexists. split; [exact E|].
  assert (B : Forall isbyte ((if be then rev l else l) ++ skipn n buf)).
  { apply Forall_app. split; [destruct be; auto using Forall_rev|]. rewrite <- (firstn_skipn n buf) in Hb. now apply Forall_app in Hb. }
  assert (Len : length (if be then rev l else l) = n) by (destruct be; rewrite ?rev_length; auto).
  assert (V : (if be then big else little) (if be then rev l else l) = v mod 256 ^ Z.of_nat n).
  { destruct be; auto. unfold big. now rewrite rev_involutive. }
  assert (F : firstn n ((if be then rev l else l) ++ skipn n buf) = if be then rev l else l).
  { rewrite firstn_app, Len, Nat.sub_diag. cbn [firstn]. rewrite app_nil_r. apply firstn_all2. lia. }
  assert (G : get t ((if be then rev l else l) ++ skipn n buf) = Done (cast t (v mod 256 ^ Z.of_nat n))).
  { rewrite (get_bytes n put get be P t _ Hw B), F, V, app_length, Len. destruct (Nat.leb_spec n (n + length (skipn n buf))); [reflexivity|lia]. }
  split; auto. intros Hw' Hv. rewrite G. f_equal. rewrite <- Hv at 2. apply cast_eq; [destruct n; [inversion P|lia]|].
  rewrite p256, Hw'. apply uwrap_cong. lia.
Qed.
Theorem C33_roundtrip n put get be : putter n put get be -> forall t buf v, 8 * Z.of_nat n <= w t -> Forall isbyte buf -> (n <= length buf)%nat ->
  exists buf', put buf v = Done buf' /\ get t buf' = Done (cast t (v mod 256 ^ Z.of_nat n)) /\
    (w t = 8 * Z.of_nat n -> cast t v = v -> get t buf' = Done v).
Proof. exact (put_get n put get be). Qed.
Print Assumptions C33_roundtrip.
Example C33_case : cast int32 (-2) = -2 /\ putbe32 [9;9;9;9;9] (-2) = Done [255;255;255;254;9] /\
  getbe32 int32 [255;255;255;254;9] = Done (-2) /\ getbe32 int64 [255;255;255;254;9] = Done 4294967294 /\ putle32 [1;2;3] 7 = Abort.
Proof. repeat split. Qed.

(* C33: hosttonet reverses the bytes of a value of any integer type, and undoes itself. *)
Theorem C33_byteswap_reverses t n v : (0 < n)%nat -> w t = 8 * Z.of_nat n ->
  exists l, low_bytes n v l /\ hosttonet t v = cast t (big l).
Proof. intros Hn Hw. exists (le_image n v). split; [apply low_bytes_le_image|now apply hosttonet_spec]. Qed.
Print Assumptions C33_byteswap_reverses.
Theorem C33_byteswap_involutive t n v : (0 < n)%nat -> w t = 8 * Z.of_nat n -> cast t v = v -> nettohost t (hosttonet t v) = v.
Proof. intros Hn Hw Hv. unfold nettohost. rewrite (hosttonet_involutive t n v Hn Hw). exact Hv. Qed.
Print Assumptions C33_byteswap_involutive.
Example C33_swap_case : cast int32 0x12345678 = 0x12345678 /\ hosttonet int32 0x12345678 = 0x78563412 /\ hosttonet int16 0x1ff = -255.
Proof. repeat split. Qed.

(* C33, host order: the 64-bit pair round-trips; the 32-bit pair round-trips at 32-bit types only, since gethost32
   reads through a signed int32 before widening; gethost16 copies four bytes into a two-byte variable whatever the
   buffer. *)
Theorem C33_host64_roundtrip t buf v : w t = 64 -> cast t v = v -> (8 <= length buf)%nat ->
  exists buf', puthost64 buf v = Done buf' /\ gethost64 t buf' = Done v.
Proof.
  intros Hw Hv Hl. unfold puthost64, puthost. destruct (Nat.leb_spec 8 (length buf)); [|lia]. eexists; split; [reflexivity|].
  unfold gethost64, gethost. rewrite app_length, le_image_length, skipn_length. destruct (Nat.ltb_spec (8 + (length buf - 8)) 8); [lia|].
  destruct (Nat.leb_spec 8 (8 + (length buf - 8))); [|lia]. change (8 * Z.of_nat 8 <=? w int64) with true. cbn [andb].
  assert (F : forall m : list Z, firstn 8 (le_image 8 (cast uint64 v) ++ m) = le_image 8 (cast uint64 v)) by reflexivity.
  rewrite F, le_val_little, little_le_image. change (256 ^ Z.of_nat 8) with (2 ^ 64). f_equal. rewrite <- Hv at 2. apply cast_eq; [lia|]. rewrite Hw.
  eapply cong_trans; [apply (cast_cong int64); cbn; lia|]. eapply cong_trans; [apply (uwrap_cong 64); lia|]. apply (cast_cong uint64). cbn; lia.
Qed.
Print Assumptions C33_host64_roundtrip.
Theorem C33_gethost32_wide_refuted : exists buf v, v = v mod 2 ^ 32 /\ exists buf' r, puthost32 buf v = Done buf' /\
  getle32 uint64 buf' = Done v /\ gethost32 uint64 buf' = Done r /\ r <> v.
Proof. exists [0;0;0;0], 0x80000000. split; auto. do 2 eexists. repeat split; [reflexivity..|]. vm_compute. discriminate. Qed.
Print Assumptions C33_gethost32_wide_refuted.
Theorem C33_gethost16_refuted : forall t buf, (2 <= length buf)%nat -> gethost16 t buf = Overrun.
Proof. intros t buf H. unfold gethost16, gethost. destruct (Nat.ltb_spec (length buf) 2); [lia|]. reflexivity. Qed.
Print Assumptions C33_gethost16_refuted.
