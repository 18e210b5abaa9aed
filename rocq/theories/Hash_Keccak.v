(* keccakf is Keccak-f[1600] of FIPS 202 and adding a block is the exclusive or with its words (for Hash_Props). *)
From Verif Require Import Base ListX Hash_Spec Hash_Model Hash_Steps.
From Coq Require Import NArith.
Open Scope N_scope.
Lemma rconst_eq : forall i, (i < 24)%nat -> idx rconst i = round_const i.
Proof. intros i H. do 24 (destruct i as [ | i]; [ vm_compute; reflexivity | ]). lia. Qed.
Lemma list25 : forall A (l : list A), length l = 25%nat -> exists x0 x1 x2 x3 x4 x5 x6 x7 x8 x9 x10 x11 x12 x13 x14 x15 x16 x17 x18 x19 x20 x21 x22 x23 x24,
  l = [x0; x1; x2; x3; x4; x5; x6; x7; x8; x9; x10; x11; x12; x13; x14; x15; x16; x17; x18; x19; x20; x21; x22; x23; x24].
Proof.
  intros A l L. do 25 (destruct l as [ | ? l]; [ discriminate L | ]). destruct l; [ | discriminate L ].
  repeat eexists; reflexivity.
Qed.
Lemma thetarho_ok : forall x, length x = 25%nat -> thetarho x = pi (rho (theta x)).
Proof.
  intros x L. destruct (list25 _ x L) as (x0 & x1 & x2 & x3 & x4 & x5 & x6 & x7 & x8 & x9 & x10 & x11 & x12 & x13 & x14 & x15 & x16 & x17 & x18 & x19 & x20 & x21 & x22 & x23 & x24 & ->). clear L.
  cbv [thetarho bnd pi rho theta lanes lane seq map nth Nat.modulo Nat.divmod Nat.div fst snd Nat.sub Nat.add Nat.mul
    rho_offset rho_offsets find Nat.eqb andb N.of_nat Pos.of_succ_nat Pos.succ N.eqb Pos.eqb rotl shl
    N.sub Pos.sub_mask Pos.sub_mask_carry Pos.double_mask Pos.succ_double_mask Pos.double_pred_mask Pos.pred_double].
  reflexivity.
Qed.
Lemma chi_ok : forall x, length x = 25%nat -> chiloop x = chi x.
Proof.
  intros x L. destruct (list25 _ x L) as (x0 & x1 & x2 & x3 & x4 & x5 & x6 & x7 & x8 & x9 & x10 & x11 & x12 & x13 & x14 & x15 & x16 & x17 & x18 & x19 & x20 & x21 & x22 & x23 & x24 & ->). clear L.
  cbv [chiloop chirow bnd chi lanes lane seq map nth Nat.modulo Nat.divmod Nat.div fst snd Nat.sub Nat.add Nat.mul app].
  reflexivity.
Qed.
Lemma lanes_length : forall f, length (lanes f) = 25%nat.
Proof. intros f. unfold lanes. rewrite map_length, seq_length. reflexivity. Qed.
Lemma round_ok : forall x i, length x = 25%nat -> (i < 24)%nat -> keccakround x i = iota i (chi (pi (rho (theta x)))).
Proof.
  intros x i L H. unfold keccakround. rewrite thetarho_ok by exact L. rewrite chi_ok by apply lanes_length.
  rewrite rconst_eq by exact H. 
  assert (L2 : length (chi (pi (rho (theta x)))) = 25%nat) by apply lanes_length. revert L2. generalize (chi (pi (rho (theta x)))). intros y L2.
  unfold iota. generalize (round_const i). intros c. clear - L2.
  destruct (list25 _ y L2) as (x0 & x1 & x2 & x3 & x4 & x5 & x6 & x7 & x8 & x9 & x10 & x11 & x12 & x13 & x14 & x15 & x16 & x17 & x18 & x19 & x20 & x21 & x22 & x23 & x24 & ->).
  reflexivity.
Qed.
Lemma keccakf_ok : forall x, length x = 25%nat -> keccakf x = keccak_f x.
Proof.
  intros x. unfold keccakf, keccak_f. assert (F : Forall (fun i => i < 24)%nat (seq 0 24)). { apply Forall_forall. intros i Hi. apply in_seq in Hi. lia. }
  revert x F. generalize (seq 0 24). intros l. induction l as [ | i l IH]; intros x F L; cbn [fold_left]; [ reflexivity | ].
  inversion F as [ | ? ? Hi Hl]; subst. rewrite round_ok by assumption. apply IH; [ assumption | apply lanes_length ].
Qed.
Lemma addwords_length : forall lo hi x buf, length (addwords lo hi x buf) = length x.
Proof. intros. unfold addwords. rewrite map_length, seq_length. reflexivity. Qed.
Lemma nth_map_seq : forall {A} (f : nat -> A) n i d, (i < n)%nat -> nth i (map f (seq 0 n)) d = f i.
Proof.
  intros A f n i d H. rewrite (nth_indep _ d (f 0%nat)) by (rewrite map_length, seq_length; exact H). rewrite map_nth, seq_nth by exact H. reflexivity.
Qed.
Lemma addwords_nth : forall lo hi x buf i, (i < length x)%nat -> idx (addwords lo hi x buf) i
  = if ((lo <=? i) && (i <? hi))%nat then N.lxor (idx x i) (getle64 (slice buf (8 * i) (8 * i + 8))) else idx x i.
Proof.
  intros lo hi x buf i H. unfold addwords. unfold idx at 1. 
  apply nth_map_seq. exact H.
Qed.
Lemma word_nth : forall buf i, (length buf mod 8 = 0)%nat -> nth i (map num_le (chunks 8 buf)) 0
  = if (i <? length buf / 8)%nat then getle64 (slice buf (8 * i) (8 * i + 8)) else 0.
Proof.
  intros buf i H. destruct (Nat.ltb_spec i (length buf / 8)) as [G | G].
  - rewrite nth_indep with (d' := num_le []) by (rewrite map_length; unfold chunks; rewrite map_length, seq_length; exact G).
    rewrite map_nth. unfold chunks.
    rewrite nth_map_seq by exact G. unfold slice. replace (8 * i + 8 - 8 * i)%nat with 8%nat by lia. rewrite (Nat.mul_comm 8 i). reflexivity.
  - apply nth_overflow. rewrite map_length. unfold chunks. rewrite map_length, seq_length. exact G.
Qed.
Lemma addblock_ok : forall x buf, length x = 25%nat -> In (length buf) [144; 136; 104; 72]%nat ->
  addblock x buf = map (fun i => N.lxor (nth i x 0) (nth i (map num_le (chunks 8 buf)) 0)) (seq 0 25).
Proof.
  intros x buf L H.
  assert (HL : length (addblock x buf) = 25%nat).
  { unfold addblock. repeat (destruct (_ <=? _)%nat); rewrite ?addwords_length; exact L. }
  apply (nth_ext _ _ 0 0). { rewrite HL, map_length, seq_length. reflexivity. }
  intros i Hi. rewrite HL in Hi.
  rewrite nth_map_seq by exact Hi.
  rewrite word_nth. 2: { destruct H as [<- | [<- | [<- | [<- | []]]]]; reflexivity. }
  fold (idx (addblock x buf) i). fold (idx x i).
  assert (A : forall lo hi y, length y = 25%nat -> idx (addwords lo hi y buf) i
    = if ((lo <=? i) && (i <? hi))%nat then N.lxor (idx y i) (getle64 (slice buf (8 * i) (8 * i + 8))) else idx y i).
  { intros lo hi y Ly. apply addwords_nth. lia. }
  unfold addblock. generalize dependent (getle64 (slice buf (8 * i) (8 * i + 8))). intros w A.
  destruct H as [E | [E | [E | [E | []]]]]; rewrite <- E;
    repeat match goal with |- context [(?a <=? ?b)%nat] => let v := eval vm_compute in (a <=? b)%nat in change (a <=? b)%nat with v end; cbv iota;
    match goal with |- context [(i <? ?q)%nat] => let v := eval vm_compute in q in change q with v end;
    repeat rewrite A by (rewrite ?addwords_length; exact L);
    do 25 (destruct i as [ | i]; [ cbn; rewrite ?N.lxor_0_r; reflexivity | ]); lia.
Qed.
Lemma step_keccak_ok : forall x buf, length x = 25%nat -> In (length buf) [144; 136; 104; 72]%nat -> step_keccak x buf = absorb x buf.
Proof.
  intros x buf L H. unfold step_keccak, absorb. rewrite addblock_ok by assumption. rewrite keccakf_ok by (rewrite map_length; apply seq_length). reflexivity.
Qed.
Lemma absorb_length : forall x buf, length (absorb x buf) = 25%nat.
Proof.
  intros x buf. unfold absorb, keccak_f. set (y := map _ (seq 0 25)). 
  assert (L : length y = 25%nat) by (unfold y; rewrite map_length; apply seq_length). clearbody y. revert y L.
  generalize (seq 0 24). intros l. induction l as [ | i l IH]; intros y L; cbn [fold_left]; [ exact L | apply IH, lanes_length ].
Qed.
