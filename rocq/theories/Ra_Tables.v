(* The register tables of 6/ra.c against the machine's register names. *)
From Verif Require Import Base Ra_Spec Ra_Model.

Definition alltrue (f : nat -> bool) (n : nat) : bool := forallb f (seq 0 n).
Lemma alltrue_spec f n : alltrue f n = true -> forall r, r < n -> f r = true.
Proof. unfold alltrue. rewrite forallb_forall. intros H r Hr. apply H, in_seq. lia. Qed.

Lemma mode_eqb_eq a b : mode_eqb a b = true <-> a = b.
Proof. destruct a, b; split; intros H; try discriminate H; auto. Qed.
Definition hw_eqb (a b : hwreg) : bool :=
  match a, b with Gpr x, Gpr y | Xmm x, Xmm y => x =? y | Ip, Ip | Nohw, Nohw => true | _, _ => false end.
Lemma hw_eqb_eq a b : hw_eqb a b = true <-> a = b.
Proof.
  destruct a, b; cbn; split; intros H; try discriminate H; auto; try (apply Nat.eqb_eq in H; now subst);
  injection H as ->; apply Nat.eqb_refl.
Qed.

Lemma general_lt r : general r = true -> 1 <= r < 101.
Proof.
  unfold general. rewrite !andb_true_iff. intros [[[A B] _] _]. apply Nat.leb_le in A. apply Nat.ltb_lt in B. lia.
Qed.
Lemma general_prepainted r : general r = true -> prepainted r = true.
Proof. intros H. apply general_lt in H. unfold prepainted, Nreg. apply Nat.ltb_lt. lia. Qed.

Lemma regmodes_ok r : r < nphys -> nth r regmodes ModeNone = hwmode r.
Proof.
  intros H. apply mode_eqb_eq. revert r H. apply (alltrue_spec (fun r => mode_eqb (nth r regmodes ModeNone) (hwmode r))).
  vm_compute. reflexivity.
Qed.

(* every general register is in its row at its size *)
Lemma regmap_colourmap r : general r = true -> regmap (colourmap r) (modeidx (hwmode r)) = r.
Proof.
  intros G. assert (T : (negb (general r) || (regmap (colourmap r) (modeidx (hwmode r)) =? r)) = true).
  { apply (alltrue_spec (fun r => negb (general r) || (regmap (colourmap r) (modeidx (hwmode r)) =? r)) 101).
    - vm_compute. reflexivity. - apply general_lt in G. lia. }
  rewrite G in T. now apply Nat.eqb_eq in T.
Qed.
(* every entry of the table is a general register of that size and row *)
Lemma regmap_entry i m : regmap i m <> 0 ->
  i < Northogonal /\ general (regmap i m) = true /\ colourmap (regmap i m) = i /\ modeidx (hwmode (regmap i m)) = m.
Proof.
  intros H. destruct (Nat.lt_ge_cases i Northogonal) as [Hi|Hi].
  2: { exfalso. apply H. unfold regmap. rewrite (nth_overflow regmap_tab); [destruct m; reflexivity|exact Hi]. }
  destruct (Nat.lt_ge_cases m Nmode) as [Hm|Hm].
  2: { exfalso. apply H. unfold regmap. assert (L : length (nth i regmap_tab []) = Nmode).
       { assert (Q : (length (nth i regmap_tab []) =? Nmode) = true).
         { revert i Hi H. intros i Hi _. revert i Hi. apply (alltrue_spec (fun i => length (nth i regmap_tab []) =? Nmode)). vm_compute. reflexivity. }
         now apply Nat.eqb_eq in Q. }
       apply nth_overflow. lia. }
  assert (T : alltrue (fun m => (regmap i m =? 0) ||
    (general (regmap i m) && (colourmap (regmap i m) =? i) && (modeidx (hwmode (regmap i m)) =? m))) Nmode = true).
  { clear m H Hm. revert i Hi. apply (alltrue_spec (fun i => alltrue (fun m => (regmap i m =? 0) ||
    (general (regmap i m) && (colourmap (regmap i m) =? i) && (modeidx (hwmode (regmap i m)) =? m))) Nmode)). vm_compute. reflexivity. }
  pose proof (alltrue_spec _ _ T m Hm) as Q. cbv beta in Q. destruct (Nat.eqb_spec (regmap i m) 0) as [E|_]; [congruence|].
  cbn [orb] in Q. rewrite !andb_true_iff in Q. destruct Q as [[A B] C]. apply Nat.eqb_eq in B, C. auto.
Qed.
(* two general registers are in the same row exactly when they name the same storage *)
Lemma colourmap_hw a b : general a = true -> general b = true -> (colourmap a = colourmap b <-> hw a = hw b).
Proof.
  intros Ga Gb.
  assert (T : alltrue (fun b => negb (general a) || negb (general b) || Bool.eqb (colourmap a =? colourmap b) (hw_eqb (hw a) (hw b))) 101 = true).
  { apply general_lt in Ga. assert (L : a < 101) by lia. clear Ga Gb b. revert a L.
    apply (alltrue_spec (fun a => alltrue (fun b => negb (general a) || negb (general b) || Bool.eqb (colourmap a =? colourmap b) (hw_eqb (hw a) (hw b))) 101)).
    vm_compute. reflexivity. }
  assert (L : b < 101) by (apply general_lt in Gb; lia).
  pose proof (alltrue_spec _ _ T b L) as Q. cbv beta in Q. rewrite Ga, Gb in Q. cbn [negb orb] in Q.
  apply Bool.eqb_prop in Q. rewrite <- hw_eqb_eq, <- Q. symmetry. apply Nat.eqb_eq.
Qed.
Lemma framereg_fixed r : framereg r = fixedreg r.
Proof. unfold framereg, fixedreg, Rrbp, Rrsp, Rrip. destruct (r =? 59), (r =? 60); reflexivity. Qed.
Lemma general_notframe r : general r = true -> framereg r = false.
Proof.
  intros G. unfold framereg. destruct (Nat.eqb_spec r 59) as [->|_]; [discriminate G|].
  destruct (Nat.eqb_spec r 60) as [->|_]; [discriminate G|]. destruct (Nat.eqb_spec r 101) as [->|_]; [discriminate G|]. reflexivity.
Qed.
Lemma general_hw_frame a b : general a = true -> framereg b = true -> hw a <> hw b.
Proof.
  intros Ga Fb E.
  assert (T : (negb (general a) || negb (existsb (hw_eqb (hw a)) [hw 59; hw 60; hw 101])) = true).
  { apply (alltrue_spec (fun a => negb (general a) || negb (existsb (hw_eqb (hw a)) [hw 59; hw 60; hw 101])) 101).
    - vm_compute. reflexivity. - apply general_lt in Ga. lia. }
  rewrite Ga in T. cbn [negb orb] in T. apply negb_true_iff in T.
  assert (X : existsb (hw_eqb (hw a)) [hw 59; hw 60; hw 101] = true); [|congruence].
  apply existsb_exists. exists (hw b). split; [|now apply hw_eqb_eq].
  unfold framereg in Fb. apply orb_true_iff in Fb as [Fb|Fb]; [apply orb_true_iff in Fb as [Fb|Fb]|]; apply Nat.eqb_eq in Fb; subst b; cbn [In]; auto.
Qed.
