(* Shared list / word helpers.  Nothing here models repository code. *)
From Coq Require Export List Arith NArith ZArith Lia Bool Sorted Permutation.
From Coq Require Export ZifyBool ZifyNat ZifyN.
Export ListNotations.

#[global] Arguments Nat.ltb _ _ : simpl never.
#[global] Arguments Nat.leb _ _ : simpl never.
#[global] Arguments Nat.eqb _ _ : simpl never.

(* in-place array store a[i] = x; out of range is a no-op (callers guard it) *)
Fixpoint upd {A} (l : list A) (i : nat) (x : A) : list A :=
  match l, i with
  | [], _ => []
  | _ :: t, O => x :: t
  | h :: t, S i' => h :: upd t i' x
  end.

Lemma upd_length {A} (l : list A) i x : length (upd l i x) = length l.
Proof. revert i; induction l as [|h t IH]; intros [|i]; cbn; auto. Qed.

Lemma nth_upd_same {A} (l : list A) i x d : i < length l -> nth i (upd l i x) d = x.
Proof. revert i; induction l as [|h t IH]; intros [|i] H; cbn in *; try lia; auto. apply IH; lia. Qed.

Lemma nth_upd_other {A} (l : list A) i j x d : i <> j -> nth j (upd l i x) d = nth j l d.
Proof.
  revert i j; induction l as [|h t IH]; intros [|i] [|j] H; cbn; auto; try lia.
Qed.

Lemma nth_upd {A} (l : list A) i j x d :
  nth j (upd l i x) d = if (i =? j) && (i <? length l) then x else nth j l d.
Proof.
  destruct (Nat.eqb_spec i j) as [->|Hne]; cbn [andb].
  - destruct (Nat.ltb_spec j (length l)) as [Hlt|Hge].
    + now apply nth_upd_same.
    + rewrite !nth_overflow; auto. rewrite upd_length; lia.
  - now apply nth_upd_other.
Qed.

Lemma upd_oob {A} (l : list A) i x : length l <= i -> upd l i x = l.
Proof. revert i; induction l as [|h t IH]; intros [|i] H; cbn in *; try lia; auto. f_equal; apply IH; lia. Qed.

Lemma upd_app_l {A} (l m : list A) i x : i < length l -> upd (l ++ m) i x = upd l i x ++ m.
Proof. revert i; induction l as [|h t IH]; intros [|i] H; cbn in *; try lia; auto. f_equal; apply IH; lia. Qed.

Lemma nth_error_upd {A} (l : list A) i j x :
  nth_error (upd l i x) j = if (i =? j) && (i <? length l) then Some x else nth_error l j.
Proof.
  destruct (Nat.eqb_spec i j) as [->|Hne]; cbn [andb].
  - destruct (Nat.ltb_spec j (length l)) as [Hlt|Hge].
    + rewrite (nth_error_nth' _ x) by (rewrite upd_length; auto). now rewrite nth_upd_same.
    + rewrite upd_oob; auto.
  - revert i j Hne; induction l as [|h t IH]; intros [|i] [|j] Hne; cbn; auto; lia.
Qed.

Lemma upd_same {A} (l : list A) i d : upd l i (nth i l d) = l.
Proof. revert i; induction l as [|h t IH]; intros [|i]; cbn; auto. f_equal; auto. Qed.

Lemma Forall_upd {A} (P : A -> Prop) l i x : Forall P l -> P x -> Forall P (upd l i x).
Proof. intros H; revert i; induction H as [|h t Hh Ht IH]; intros [|i] Hx; cbn; auto. Qed.

Lemma nth_ext_d {A} (l m : list A) d :
  length l = length m -> (forall i, i < length l -> nth i l d = nth i m d) -> l = m.
Proof. intros HL H; apply (nth_ext l m d d); auto. Qed.

Lemma nth_repeat_d {A} (x : A) n i : nth i (repeat x n) x = x.
Proof. revert i; induction n as [|n IH]; intros [|i]; cbn; auto. Qed.

Lemma nth_repeat_lt {A} (x d : A) n i : i < n -> nth i (repeat x n) d = x.
Proof. revert i; induction n as [|n IH]; intros [|i] H; cbn; auto; try lia. apply IH; lia. Qed.

(* word-size facts *)
Definition W64 : N := 18446744073709551616. (* 2^64 *)
Lemma W64_pow : W64 = (2 ^ 64)%N. Proof. reflexivity. Qed.

Lemma testbit_high (x k : N) : (x < W64)%N -> (64 <= k)%N -> N.testbit x k = false.
Proof.
  intros Hx Hk. destruct (N.eq_dec x 0) as [->|Hnz]; [apply N.bits_0|].
  apply N.bits_above_log2.
  apply N.log2_lt_pow2; [lia|]. rewrite W64_pow in Hx.
  eapply N.lt_le_trans; [exact Hx|]. apply N.pow_le_mono_r; lia.
Qed.

Lemma lt_W64_testbit (x : N) : (forall k, (64 <= k)%N -> N.testbit x k = false) -> (x < W64)%N.
Proof.
  intros H. destruct (N.eq_dec x 0) as [->|Hnz]; [reflexivity|].
  rewrite W64_pow. apply N.log2_lt_pow2; [lia|].
  destruct (N.lt_ge_cases (N.log2 x) 64) as [Hl|Hl]; auto.
  exfalso. specialize (H _ Hl). rewrite N.bit_log2 in H by auto. discriminate.
Qed.

Lemma map_add_seq a s k : map (fun j => a + j)%nat (seq s k) = seq (a + s) k.
Proof.
  revert s; induction k as [|k IH]; intros s; cbn; auto. f_equal. rewrite IH. f_equal. lia.
Qed.
