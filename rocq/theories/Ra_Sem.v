(* Register allocator: the allocated program computes what the original computes. *)
From Verif Require Import Base Ra_Spec Ra_Model Ra_Live Ra_Tables Ra_Wl Ra_Core Ra_Build Ra_Final Ra_SemSpec Ra_Emit.
Import Ra_Spec Ra_Model.
Open Scope Z_scope.

Lemma bits_nonneg m : 0 <= bits m.
Proof. destruct m; cbn; lia. Qed.
Lemma pow_bits_pos m : 0 < 2 ^ bits m.
Proof. apply Z.pow_pos_nonneg; [lia|apply bits_nonneg]. Qed.
Lemma mod_mod_le v a b : 0 <= a <= b -> (v mod 2 ^ b) mod 2 ^ a = v mod 2 ^ a.
Proof.
  intros H. assert (E : 2 ^ b = 2 ^ a * 2 ^ (b - a)) by (rewrite <- Z.pow_add_r by lia; f_equal; lia).
  rewrite E. pose proof (Z.pow_pos_nonneg 2 a ltac:(lia) ltac:(lia)). pose proof (Z.pow_pos_nonneg 2 (b - a) ltac:(lia) ltac:(lia)).
  rewrite Z.rem_mul_r by lia. rewrite Z.mul_comm, Z_mod_plus_full. apply Z.mod_mod. lia.
Qed.
(* what a wider or equal name sees after a write *)
Lemma put_narrow m c v b : m <> ModeL -> 0 <= b <= bits m -> put m c v mod 2 ^ b = v mod 2 ^ b.
Proof.
  intros Hm Hb. assert (E : put m c v = c - c mod 2 ^ bits m + v mod 2 ^ bits m) by (destruct m; try reflexivity; congruence). rewrite E.
  rewrite <- (mod_mod_le v b (bits m)) by lia. rewrite <- (mod_mod_le (c - _ + _) b (bits m)) by lia. f_equal.
  pose proof (pow_bits_pos m). rewrite Z.add_mod, Zminus_mod, !Z.mod_mod by lia. rewrite Z.sub_diag, Z.mod_0_l by lia. cbn [Z.add]. now rewrite Z.mod_mod by lia.
Qed.
Lemma put_wide m c c' v b : bits m <= b -> c mod 2 ^ b = c' mod 2 ^ b -> put m c v mod 2 ^ b = put m c' v mod 2 ^ b.
Proof.
  intros Hb H.
  assert (Q : (c - c mod 2 ^ bits m + v mod 2 ^ bits m) mod 2 ^ b = (c' - c' mod 2 ^ bits m + v mod 2 ^ bits m) mod 2 ^ b).
  { pose proof (bits_nonneg m). assert (E : c mod 2 ^ bits m = c' mod 2 ^ bits m) by (rewrite <- (mod_mod_le c (bits m) b), <- (mod_mod_le c' (bits m) b) by lia; now rewrite H).
    rewrite E. rewrite (Z.add_mod (c - _)), (Z.add_mod (c' - _)) by (apply Z.pow_nonzero; lia). f_equal. f_equal. rewrite (Zminus_mod c), (Zminus_mod c'). now rewrite H. }
  destruct m; try exact Q. reflexivity.
Qed.

Lemma same_hw_class a b : (a < nphys)%nat -> (b < nphys)%nat -> hw a = hw b -> classof (hwmode a) = classof (hwmode b).
Proof.
  intros La Lb E.
  assert (T : alltrue (fun b => negb (hw_eqb (hw a) (hw b)) || rclass_eqb (classof (hwmode a)) (classof (hwmode b))) nphys = true).
  { clear - La. revert a La. apply (alltrue_spec (fun a => alltrue (fun b => negb (hw_eqb (hw a) (hw b)) || rclass_eqb (classof (hwmode a)) (classof (hwmode b))) nphys)). vm_compute. reflexivity. }
  pose proof (alltrue_spec _ _ T b Lb) as Q. cbv beta in Q. rewrite (proj2 (hw_eqb_eq _ _) E) in Q. now apply rclass_eqb_eq in Q.
Qed.
Lemma same_name a b : general a = true -> general b = true -> hw a = hw b -> hwmode a = hwmode b -> a = b.
Proof. intros Ga Gb E F. rewrite <- (regmap_colourmap a Ga), <- (regmap_colourmap b Gb). rewrite F. f_equal. now apply colourmap_hw. Qed.
Lemma coreg_ok a m : general a = true -> classof (hwmode a) = Classint -> classof m = Classint ->
  general (coreg a m) = true /\ hw (coreg a m) = hw a /\ hwmode (coreg a m) = m.
Proof.
  intros G C Cm.
  assert (T : forall m, In m [ModeB; ModeW; ModeL; ModeQ] -> negb (general a) || negb (rclass_eqb (classof (hwmode a)) Classint) ||
     (general (coreg a m) && hw_eqb (hw (coreg a m)) (hw a) && mode_eqb (hwmode (coreg a m)) m) = true).
  { assert (L : (a < 101)%nat) by (apply general_lt in G; lia). clear G C.
    assert (Q : forallb (fun m => negb (general a) || negb (rclass_eqb (classof (hwmode a)) Classint) || (general (coreg a m) && hw_eqb (hw (coreg a m)) (hw a) && mode_eqb (hwmode (coreg a m)) m)) [ModeB; ModeW; ModeL; ModeQ] = true).
    { revert a L. apply (alltrue_spec (fun a => forallb (fun m => negb (general a) || negb (rclass_eqb (classof (hwmode a)) Classint) || (general (coreg a m) && hw_eqb (hw (coreg a m)) (hw a) && mode_eqb (hwmode (coreg a m)) m)) [ModeB; ModeW; ModeL; ModeQ])). vm_compute. reflexivity. }
    rewrite forallb_forall in Q. exact Q. }
  assert (Hm : In m [ModeB; ModeW; ModeL; ModeQ]) by (destruct m; try discriminate Cm; cbn; auto).
  specialize (T m Hm). rewrite G, (proj2 (rclass_eqb_eq _ _) C) in T. cbn [negb orb] in T. apply andb_true_iff in T as [T T3]. apply andb_true_iff in T as [T1 T2].
  split; auto. split; [now apply hw_eqb_eq|now apply mode_eqb_eq].
Qed.

(* ---------- reading after writing ---------- *)

Lemma rd_wr_same p st r v : (nphys <= nregs p)%nat -> rd (wr p st r v) r = v mod 2 ^ bits (if (r <? nphys)%nat then hwmode r else vmode p r).
Proof.
  intros _. unfold rd, wr. destruct (r <? nphys)%nat; cbn [cell virt]; [|now rewrite Nat.eqb_refl]. destruct (hw_dec (hw r) (hw r)) as [_|N]; [|congruence].
  destruct (hwmode r) eqn:E; try (apply put_narrow; [discriminate|cbn; lia]). cbn [put]. apply Z.mod_mod. discriminate.
Qed.
Lemma rd_wr_other p st d r v : d <> r -> ~ ((d < nphys)%nat /\ (r < nphys)%nat /\ hw d = hw r) -> rd (wr p st d v) r = rd st r.
Proof.
  intros N H. unfold rd, wr. destruct (Nat.ltb_spec d nphys) as [Ld|Ld], (Nat.ltb_spec r nphys) as [Lr|Lr]; cbn [cell virt]; auto.
  - destruct (hw_dec (hw r) (hw d)) as [E|_]; auto. exfalso. apply H. auto.
  - destruct (Nat.eqb_spec r d); auto. congruence.
Qed.
Lemma rd_wr_over p p' st st' d r v : (d < nphys)%nat -> (r < nphys)%nat -> hw d = hw r -> rd st r = rd st' r \/ kills d r -> rd (wr p st d v) r = rd (wr p' st' d v) r.
Proof.
  intros Ld Lr E H. pose proof (same_hw_class d r Ld Lr E) as C. apply Nat.ltb_lt in Ld, Lr. unfold rd, wr in *. rewrite Ld, Lr in *. cbn [cell] in *. destruct (hw_dec (hw r) (hw d)) as [_|N]; [|congruence].
  assert (K : kills d r -> put (hwmode d) (cell st (hw r)) v mod 2 ^ bits (hwmode r) = put (hwmode d) (cell st' (hw r)) v mod 2 ^ bits (hwmode r)).
  { intros K. assert (Wd : (width (hwmode r) <= width (hwmode d))%nat) by (destruct K as [->|(_ & _ & _ & K)]; auto).
    destruct (hwmode d) eqn:Ed; try (rewrite !put_narrow; [reflexivity|discriminate|destruct (hwmode r); cbn in *; try lia; discriminate C|discriminate|destruct (hwmode r); cbn in *; try lia; discriminate C]).
    reflexivity. }
  destruct H as [H|H]; [|auto].
  destruct (Z_le_gt_dec (bits (hwmode d)) (bits (hwmode r))) as [Hb|Hb]; [now apply put_wide|].
  apply K. right. apply Nat.ltb_lt in Ld, Lr. split; auto. split; auto. split; auto. destruct (hwmode d), (hwmode r); cbn in *; try lia; discriminate C.
Qed.

Lemma kills_dec d r : {kills d r} + {~ kills d r}.
Proof.
  unfold kills. destruct (Nat.eq_dec d r); [auto|]. destruct (lt_dec d nphys); [|right; intros [?|?]; tauto]. destruct (lt_dec r nphys); [|right; intros [?|?]; tauto].
  destruct (hw_dec (hw d) (hw r)); [|right; intros [?|?]; tauto]. destruct (le_dec (width (hwmode r)) (width (hwmode d))); [left; auto|right; intros [?|?]; tauto].
Qed.

Lemma in_opregs i ks r : In r (opregs ks (args i)) <-> exists k, In k ks /\ argreg i k r.
Proof.
  unfold opregs. rewrite in_flat_map. unfold argreg. split; intros (k & Hk & H); exists k; split; auto.
  - destruct (nth_error (args i) (k - 1)) as [[x| | |]|]; cbn in H; try contradiction. destruct H as [->|[]]. reflexivity.
  - rewrite H. now left.
Qed.
Lemma in_inputs i r : In r (inputs i) <-> reads i r.
Proof.
  unfold inputs, reads. rewrite !in_app_iff, in_opregs. unfold addrregs. rewrite in_flat_map.
  assert (Q : (exists x, In x (args i) /\ In r match x with Lmem b => [b] | Lmemi b x0 => [b; x0] | _ => [] end) <->
    (exists a, In a (args i) /\ match a with Lmem b => r = b | Lmemi b x => r = b \/ r = x | _ => False end)).
  { split; intros (a & Ha & H); exists a; split; auto; destruct a; cbn in *; intuition. }
  tauto.
Qed.
Lemma in_outputs i r : In r (outputs i) <-> writes i r.
Proof. unfold outputs, writes. now rewrite in_app_iff, in_opregs. Qed.

Section Sim.
Variable M : Type.
Variable act : nat -> list Z -> M -> list Z * M.
Variable goto : nat -> M -> nat.
Variable zext : nat -> bool.
Variable p : prog.
Hypothesis W : wf_prog p.
Variable col : list nat.
Hypothesis CP : forall r, (r < nphys)%nat -> nth r col 0%nat = r.
Hypothesis CO : forall i r, in_prog p i -> reads i r \/ writes i r -> framereg r = false -> general (nth r col 0%nat) = true /\ hwmode (nth r col 0%nat) = vmode p r.
Hypothesis CD : forall d r, Conflict p d r -> (nphys <= d \/ nphys <= r)%nat -> hw (nth d col 0%nat) <> hw (nth r col 0%nat).
Hypothesis NC : narrow_copies p.
Hypothesis WC : whole_copies p.
Notation c r := (nth r col 0%nat).
Notation cs l := (map (fun r => nth r col 0%nat) l).
Notation EX := (exec M act zext p).
Notation EM := (exec_emitted M act zext p col).

(* every register that is needed has its value in its machine register *)
Definition Rel (pt : point) (st st' : regs) : Prop := forall r, Needed p r pt -> rd st r = rd st' (c r).

Lemma frame_low r : framereg r = true -> (r < nphys)%nat.
Proof. intros H. destruct (Nat.lt_ge_cases r nphys); auto. rewrite framereg_fixed in H. rewrite nofixed in H by auto. discriminate. Qed.
Lemma touched i r : in_prog p i -> reads i r \/ writes i r -> (c r < nphys)%nat /\ hwmode (c r) = vmode p r /\ namable (c r) = true.
Proof.
  intros Hi H. assert (Me : mentions i r) by (destruct H; [now apply reads_mentions|now apply writes_mentions]).
  destruct (wf_regs p W i r Hi Me) as [L N]. destruct (framereg r) eqn:F.
  - pose proof (frame_low r F) as Lr. rewrite CP by auto. split; auto. split; auto. symmetry. now apply wf_hwmode.
  - destruct (CO i r Hi H F) as [G Hm]. split; [apply general_lt in G; unfold nphys; lia|]. split; auto. unfold namable. now rewrite G.
Qed.
Lemma needed_touched r pt : Needed p r pt -> exists i, in_prog p i /\ reads i r.
Proof. induction 1 as [pt i A R|b k i A N L IH|b bb s Hb Hs Hn L IH]; auto. exists i. split; auto. eapply at_prog; eauto. Qed.
Lemma mode_of r pt : Needed p r pt -> (if (r <? nphys)%nat then hwmode r else vmode p r) = hwmode (c r) /\ (c r < nphys)%nat.
Proof.
  intros H. apply needed_touched in H as (i & Hi & R). destruct (touched i r Hi (or_introl R)) as (L & E & _). split; auto.
  destruct (Nat.ltb_spec r nphys) as [Lr|Lr]; auto. now rewrite CP.
Qed.

(* ---------- writes ---------- *)

Lemma hw_split d r : d = r \/ (d <> r /\ (d < nphys)%nat /\ (r < nphys)%nat /\ hw d = hw r) \/ (d <> r /\ ~ ((d < nphys)%nat /\ (r < nphys)%nat /\ hw d = hw r)).
Proof.
  destruct (Nat.eq_dec d r); auto. destruct (lt_dec d nphys); [|right; right; tauto]. destruct (lt_dec r nphys); [|right; right; tauto]. destruct (hw_dec (hw d) (hw r)); [right; left; auto|right; right; tauto].
Qed.

(* one write outside transfers: related registers stay related, and a killed register becomes related *)
Lemma write_rel i b k st st' d v r : insn_at p (b, k) i -> (forall src, ~ copies i src d) -> writes i d -> Needed p r (b, S k) ->
  rd st r = rd st' (c r) \/ kills d r -> rd (wr p st d v) r = rd (wr p st' (c d) v) (c r).
Proof.
  intros A NCp Wd Nr H. pose proof (at_prog p _ _ A) as Hi. destruct (mode_of r _ Nr) as [Mr Lr]. pose proof (wf_phys p W) as NP.
  destruct (hw_split d r) as [->|[(N & Ld & Lr' & E)|(N & E)]].
  - rewrite !rd_wr_same by auto. rewrite Mr. apply Nat.ltb_lt in Lr. now rewrite Lr.
  - rewrite (CP d Ld). revert H. rewrite (CP r Lr'). intros H. apply rd_wr_over; auto.
  - rewrite rd_wr_other by auto. destruct H as [H|K]; [|exfalso; destruct K as [K|(K1 & K2 & K3 & _)]; tauto].
    assert (Dh : hw (c d) <> hw (c r)).
    { destruct (Nat.lt_ge_cases d nphys) as [Ld|Ld], (Nat.lt_ge_cases r nphys) as [Lr'|Lr'].
      - rewrite (CP d Ld), (CP r Lr'). tauto.
      - apply CD; auto. exists b, k, i. repeat split; auto; try apply A; try apply Wd. intros (src & C & _). exact (NCp src C).
      - apply CD; auto. exists b, k, i. repeat split; auto; try apply A; try apply Wd. intros (src & C & _). exact (NCp src C).
      - apply CD; auto. exists b, k, i. repeat split; auto; try apply A; try apply Wd. intros (src & C & _). exact (NCp src C). }
    rewrite rd_wr_other; [exact H|congruence|tauto].
Qed.

Lemma writes_rel i b k r : insn_at p (b, k) i -> (forall src d, ~ copies i src d) -> Needed p r (b, S k) ->
  forall ds vs st st', (forall d, In d ds -> writes i d) -> rd st r = rd st' (c r) \/ (exists d, In d ds /\ kills d r) ->
  rd (wrs p st ds vs) r = rd (wrs p st' (cs ds) vs) (c r).
Proof.
  intros A NCp Nr. induction ds as [|d ds IH]; intros vs st st' Hd H; cbn [wrs map].
  - destruct H as [H|(d & [] & _)]; auto.
  - apply IH; [intros; apply Hd; now right|].
    assert (Q : rd st r = rd st' (c r) \/ kills d r -> rd (wr p st d (hd 0 vs)) r = rd (wr p st' (c d) (hd 0 vs)) (c r)).
    { intros Q. apply (write_rel i b k); auto. apply Hd. now left. }
    destruct H as [H|(e & [->|He] & K)]; [left; auto|left; auto|]. destruct (kills_dec d r); [left; auto|right; eauto].
Qed.

(* ---------- painted instructions ---------- *)

Lemma opregs_paint ks l : opregs ks (map (paintloc col) l) = cs (opregs ks l).
Proof.
  unfold opregs. induction ks as [|k ks IH]; cbn [flat_map map]; auto. rewrite map_app, IH. f_equal. rewrite nth_error_map.
  destruct (nth_error l (k - 1)) as [[x| | |]|]; reflexivity.
Qed.
Lemma addr_paint l : addrregs (map (paintloc col) l) = cs (addrregs l).
Proof. unfold addrregs. induction l as [|a l IH]; cbn [flat_map map]; auto. rewrite map_app, IH. f_equal. destruct a; reflexivity. Qed.
Lemma fixed_paint l : (forall r, In r l -> (r < nphys)%nat) -> cs l = l.
Proof. intros H. rewrite <- (map_id l) at 2. apply map_ext_in. intros r Hr. now apply CP, H. Qed.

(* implicit operands are machine registers *)
Hypothesis IP : implicit_machine p.

Lemma inputs_paint i : in_prog p i -> inputs (paintinsn col i) = cs (inputs i).
Proof. intros Hi. unfold inputs, paintinsn. cbn [iop args]. rewrite !map_app, opregs_paint, addr_paint. do 2 f_equal. symmetry. apply fixed_paint. intros r Hr. apply (IP i); auto. Qed.
Lemma outputs_paint i : in_prog p i -> outputs (paintinsn col i) = cs (outputs i).
Proof. intros Hi. unfold outputs, paintinsn. cbn [iop args]. rewrite map_app, opregs_paint. f_equal. symmetry. apply fixed_paint. intros r Hr. apply (IP i); auto. Qed.

(* ---------- one instruction ---------- *)

Lemma rel_read b k i st st' r : insn_at p (b, k) i -> Rel (b, k) st st' -> reads i r -> rd st r = rd st' (c r).
Proof. intros A R Hr. apply R. eapply need_read; eauto. Qed.

(* a copy *)
Lemma copy_rel b k i a d st st' m : insn_at p (b, k) i -> copies i a d -> Rel (b, k) st st' ->
  exists st1, EM st' m i = (st1, m) /\ Rel (b, S k) (wr p st d (rd st a)) st1.
Proof.
  intros A C R. pose proof (at_prog p _ _ A) as Hi. pose proof C as [O Ag]. pose proof (wf_phys p W) as NP.
  assert (Ra : reads i a) by (left; rewrite O; exists 1%nat; split; [now left|unfold argreg; now rewrite Ag]).
  assert (Wd : writes i d) by (left; rewrite O; exists 2%nat; split; [now left|unfold argreg; now rewrite Ag]).
  assert (Wo : forall e, writes i e -> e = d). { intros e [(q & Hq & E)|E]; rewrite O in *; [|destruct E]. destruct Hq as [<-|[]]. unfold argreg in E. rewrite Ag in E. cbn in E. congruence. }
  destruct (touched i a Hi (or_introl Ra)) as (La & Ma & Na). destruct (touched i d Hi (or_intror Wd)) as (Ld & Md & Nd).
  pose proof (rel_read b k i st st' a A R Ra) as Ea.
  assert (Za : c a <> 0%nat) by (intros E; rewrite E in Na; discriminate Na). assert (Zd : c d <> 0%nat) by (intros E; rewrite E in Nd; discriminate Nd).
  assert (Mod : hwmode (c a) = hwmode (c d) \/ (classof (hwmode (c a)) = Classint /\ classof (hwmode (c d)) = Classint /\ general (c a) = true /\ general (c d) = true /\ bits (hwmode (c d)) <= bits (hwmode (c a)))).
  { rewrite Ma, Md. destruct (NC i a d Hi C) as [E|(C1 & C2 & F1 & F2 & Bl)]; auto. right. destruct (CO i a Hi (or_introl Ra) F1) as [G1 _]. destruct (CO i d Hi (or_intror Wd) F2) as [G2 _]. auto. }
  assert (Bl : bits (hwmode (c d)) <= bits (hwmode (c a))) by (destruct Mod as [->|(_ & _ & _ & _ & H)]; lia).
  (* what is printed *)
  set (a' := if issubreg (c a) (c d) then coreg (c a) (hwmode (c d)) else c a).
  assert (PR : hw a' = hw (c a) /\ (a' < nphys)%nat /\ hwmode a' = hwmode (c d)).
  { unfold a', issubreg. rewrite (proj2 (Nat.eqb_neq _ _) Za), (proj2 (Nat.eqb_neq _ _) Zd). cbn [negb andb].
    destruct Mod as [E|(C1 & C2 & G1 & G2 & _)].
    - rewrite E. rewrite (proj2 (mode_eqb_eq _ _) eq_refl). rewrite andb_false_r. auto.
    - rewrite C1, C2. cbn [rclass_eqb andb]. destruct (mode_eqb (hwmode (c a)) (hwmode (c d))) eqn:Em; cbn [negb]; [apply mode_eqb_eq in Em; auto|].
      destruct (coreg_ok (c a) (hwmode (c d)) G1 C1 C2) as (X1 & X2 & X3). split; auto. split; auto. apply general_lt in X1. unfold nphys. lia. }
  destruct PR as (Ha' & La' & Ma').
  assert (Va : rd st' a' = rd st' (c a) mod 2 ^ bits (hwmode (c d))).
  { unfold rd. apply Nat.ltb_lt in La, La'. rewrite La, La', Ha', Ma'. symmetry. apply mod_mod_le. split; [apply bits_nonneg|auto]. }
  assert (Same : a' = c d <-> hw (c a) = hw (c d)).
  { split; [intros <-; auto|]. intros E. unfold namable in Na, Nd. apply orb_true_iff in Na, Nd.
    destruct Nd as [Gd|Fd]; [destruct Na as [Ga|Fa]|].
    - assert (Ga' : general a' = true). { unfold a', issubreg. rewrite (proj2 (Nat.eqb_neq _ _) Za), (proj2 (Nat.eqb_neq _ _) Zd). cbn [negb andb]. destruct Mod as [Em|(C1 & C2 & G1 & G2 & _)].
        - rewrite Em, (proj2 (mode_eqb_eq _ _) eq_refl), andb_false_r. auto.
        - destruct (rclass_eqb _ _ && _); auto. now apply coreg_ok. }
      apply same_name; auto. congruence.
    - exfalso. now apply (general_hw_frame (c d) (c a) Gd Fa).
    - destruct Na as [Ga|Fa]; [exfalso; now apply (general_hw_frame (c a) (c d) Ga Fd)|].
      assert (X : c a = c d). { clear - E Fa Fd. unfold framereg in Fa, Fd. rewrite !orb_true_iff, !Nat.eqb_eq in Fa, Fd. destruct Fa as [[Fa|Fa]|Fa], Fd as [[Fd|Fd]|Fd]; rewrite Fa, Fd in E; cbn in E; try discriminate E; congruence. }
      unfold a'. rewrite X. unfold issubreg. rewrite (proj2 (mode_eqb_eq _ _) eq_refl), andb_false_r. reflexivity. }
  assert (EMI : EM st' m i = (if hw_dec (hw (c a)) (hw (c d)) then st' else wr p st' (c d) (rd st' a'), m)).
  { unfold exec_emitted, emit, paintinsn. cbn [iop args uid]. rewrite O, Ag. cbn [map paintloc]. fold a'. unfold dumbmov.
    assert (Za' : a' <> 0%nat). { intros E. assert (H : hw (c a) = Nohw) by (rewrite <- Ha', E; reflexivity). clear - H Na La. unfold namable in Na. 
      assert (T : alltrue (fun r => negb (general r || framereg r) || negb (hw_eqb (hw r) Nohw)) nphys = true) by (vm_compute; reflexivity).
      pose proof (alltrue_spec _ _ T (c a) La) as Q. cbv beta in Q. rewrite Na in Q. cbn [negb orb] in Q. apply negb_true_iff in Q. assert (hw_eqb (hw (c a)) Nohw = true) by now apply hw_eqb_eq. congruence. }
    rewrite (proj2 (Nat.eqb_neq _ _) Za'), (proj2 (Nat.eqb_neq _ _) Zd). cbn [negb andb].
    destruct (hw_dec (hw (c a)) (hw (c d))) as [E|E].
    - rewrite (proj2 (Nat.eqb_eq _ _) (proj2 Same E)). reflexivity.
    - destruct (Nat.eqb_spec a' (c d)) as [X|X]; [apply Same in X; congruence|]. reflexivity. }
  rewrite EMI. eexists. split; [reflexivity|]. intros r Nr. destruct (mode_of r _ Nr) as [Mr Lr].
  set (v := rd st a) in *.
  assert (Vv : forall b0, 0 <= b0 <= bits (hwmode (c d)) -> rd st' a' mod 2 ^ b0 = v mod 2 ^ b0) by (intros b0 Hb; rewrite Va, mod_mod_le by auto; now rewrite <- Ea).
  destruct (hw_split d r) as [<-|[(N & Ld' & Lr' & E)|(N & E)]].
  - rewrite rd_wr_same by auto. rewrite Mr. destruct (hw_dec (hw (c a)) (hw (c d))) as [X|X].
    + apply Same in X. rewrite <- Vv by (split; [apply bits_nonneg|lia]). rewrite X. unfold rd. apply Nat.ltb_lt in Ld. rewrite Ld. apply Z.mod_mod. apply Z.pow_nonzero; [lia|apply bits_nonneg].
    + rewrite rd_wr_same by auto. apply Nat.ltb_lt in Ld. rewrite Ld. symmetry. apply Vv. split; [apply bits_nonneg|lia].
  - pose proof (WC b k i a d r A C Ld' Lr' Nr ltac:(auto)) as Br. rewrite (CP r Lr').
    assert (Q : rd (wr p st d v) r = v mod 2 ^ bits (hwmode r)).
    { unfold rd, wr. apply Nat.ltb_lt in Ld', Lr'. rewrite Ld', Lr'. cbn [cell]. destruct (hw_dec (hw r) (hw d)) as [_|X]; [|congruence].
      destruct (hwmode d) eqn:Ed; rewrite ?Ed in Br; try (apply put_narrow; [discriminate|split; [apply bits_nonneg|exact Br]]). cbn [put]. apply (mod_mod_le v _ 32). split; [apply bits_nonneg|exact Br]. }
    rewrite Q. rewrite (CP d Ld') in *.
    assert (Q' : forall st0, rd (wr p st0 d (rd st' a')) r = rd st' a' mod 2 ^ bits (hwmode r)).
    { intros st0. unfold rd at 1. unfold wr. apply Nat.ltb_lt in Ld', Lr'. rewrite Ld', Lr'. cbn [cell]. destruct (hw_dec (hw r) (hw d)) as [_|X]; [|congruence].
      destruct (hwmode d) eqn:Ed; rewrite ?Ed in Br; try (apply put_narrow; [discriminate|split; [apply bits_nonneg|exact Br]]). cbn [put]. apply (mod_mod_le (rd st' a') _ 32). split; [apply bits_nonneg|exact Br]. }
    destruct (hw_dec (hw (c a)) (hw d)) as [X|X].
    + rewrite <- (Vv (bits (hwmode r))) by (split; [apply bits_nonneg|lia]). apply Same in X. rewrite X. unfold rd. apply Nat.ltb_lt in Ld', Lr'. rewrite Ld', Lr', E. apply mod_mod_le. split; [apply bits_nonneg|lia].
    + rewrite Q'. symmetry. apply Vv. split; [apply bits_nonneg|lia].
  - rewrite rd_wr_other by auto.
    assert (Nb : Needed p r (b, k)).
    { eapply need_pass; eauto. intros e He. apply Wo in He. subst e. intros [K|(K1 & K2 & K3 & _)]; tauto. }
    destruct (hw_dec (hw (c a)) (hw (c d))) as [X|X]; [now apply R|].
    assert (Dh : hw (c d) <> hw (c r)).
    { destruct (Nat.eq_dec a r) as [->|Nar]; [congruence|].
      destruct (hw_split a r) as [Y|[(_ & Y1 & Y2 & Y3)|(_ & Y)]]; [tauto| |].
      - rewrite (CP a Y1) in X. rewrite (CP r Y2). congruence.
      - assert (Cf : (nphys <= d \/ nphys <= r)%nat -> hw (c d) <> hw (c r)).
        { apply CD. exists b, k, i. split; auto. split; auto. split; auto. split; auto. intros (src & [_ Ag'] & [->|S]); rewrite Ag in Ag'; injection Ag' as ->; tauto. }
        destruct (Nat.lt_ge_cases d nphys) as [Ld'|Ld']; [|apply Cf; auto]. destruct (Nat.lt_ge_cases r nphys) as [Lr'|Lr']; [|apply Cf; auto].
        rewrite (CP d Ld'), (CP r Lr'). tauto. }
    rewrite rd_wr_other; [now apply R|congruence|]. intros (_ & _ & H). auto.
Qed.

Hypothesis ZF : zext_form zext p.
(* no zero extension reads and writes the same machine register *)
Hypothesis ZD : forall i a b, in_prog p i -> zext (uid i) = true -> args i = [Lreg a; Lreg b] -> hw (c a) <> hw (c b).

Lemma zext_rel b k i a d st st' m : insn_at p (b, k) i -> zext (uid i) = true -> iop i = Oinsn [1%nat] [] [2%nat] [] -> args i = [Lreg a; Lreg d] ->
  vmode p a = ModeL -> vmode p d = ModeQ -> framereg a = false -> framereg d = false -> Rel (b, k) st st' ->
  exists st1, EM st' m i = (st1, m) /\ Rel (b, S k) (wr p st d (rd st a)) st1.
Proof.
  intros A Z O Ag Va Vd Fa Fd R. pose proof (at_prog p _ _ A) as Hi. pose proof (wf_phys p W) as NP.
  assert (Ra : reads i a) by (left; rewrite O; exists 1%nat; split; [now left|unfold argreg; now rewrite Ag]).
  assert (Wd : writes i d) by (left; rewrite O; exists 2%nat; split; [now left|unfold argreg; now rewrite Ag]).
  assert (Wo : forall e, writes i e -> e = d). { intros e [(q & Hq & E)|E]; rewrite O in *; [|destruct E]. destruct Hq as [<-|[]]. unfold argreg in E. rewrite Ag in E. cbn in E. congruence. }
  destruct (CO i a Hi (or_introl Ra) Fa) as [Ga Ma]. destruct (CO i d Hi (or_intror Wd) Fd) as [Gd Md]. rewrite Va in Ma. rewrite Vd in Md.
  destruct (touched i a Hi (or_introl Ra)) as (La & _ & _). destruct (touched i d Hi (or_intror Wd)) as (Ld & _ & _).
  pose proof (rel_read b k i st st' a A R Ra) as Ea. pose proof (ZD i a d Hi Z Ag) as Dad.
  destruct (coreg_ok (c d) ModeL Gd ltac:(now rewrite Md) eq_refl) as (G' & H' & M'). set (d' := coreg (c d) ModeL) in *.
  assert (L' : (d' < nphys)%nat) by (apply general_lt in G'; unfold nphys; lia).
  assert (EMI : EM st' m i = (wr p st' d' (rd st' (c a)), m)).
  { unfold exec_emitted, emit, paintinsn. cbn [iop args uid]. rewrite O, Ag. cbn [map paintloc]. rewrite Z. unfold dumbmov.
    assert (Zd : c d <> 0%nat) by (intros E; rewrite E in Gd; discriminate Gd). rewrite (proj2 (Nat.eqb_neq _ _) Zd). fold d'.
    assert (N : c a <> d') by congruence. rewrite (proj2 (Nat.eqb_neq _ _) N), andb_false_r. reflexivity. }
  rewrite EMI. eexists. split; [reflexivity|]. intros r Nr. destruct (mode_of r _ Nr) as [Mr Lr].
  set (v := rd st a) in *. rewrite <- Ea.
  assert (Bv : 0 <= v < 2 ^ 32). { rewrite Ea. unfold rd. apply Nat.ltb_lt in La. rewrite La, Ma. apply Z.mod_pos_bound. reflexivity. }
  assert (V32 : v mod 2 ^ 32 = v) by now apply Z.mod_small.
  assert (Wr' : forall st0 x, (x < nphys)%nat -> hw x = hw d' -> rd (wr p st0 d' v) x = v mod 2 ^ bits (hwmode x)).
  { intros st0 x Lx Hx. unfold rd, wr. pose proof L' as L2. apply Nat.ltb_lt in Lx, L2. rewrite Lx, L2. cbn [cell]. destruct (hw_dec (hw x) (hw d')) as [_|X]; [|congruence]. rewrite M'. cbn [put]. now rewrite V32. }
  destruct (hw_split d r) as [<-|[(N & Ld' & Lr' & E)|(N & E)]].
  - rewrite rd_wr_same by auto. rewrite Mr. symmetry. apply Wr'; auto.
  - rewrite (CP d Ld') in *. rewrite (CP r Lr') in *.
    assert (Q : rd (wr p st d v) r = v mod 2 ^ bits (hwmode r)).
    { unfold rd, wr. pose proof Ld' as L2. pose proof Lr' as L3. apply Nat.ltb_lt in L2, L3. rewrite L2, L3. cbn [cell]. destruct (hw_dec (hw r) (hw d)) as [_|X]; [|congruence]. rewrite Md.
      apply put_narrow; [discriminate|]. destruct (hwmode r); cbn; lia. }
    rewrite Q. symmetry. apply Wr'; auto. congruence.
  - rewrite rd_wr_other by auto.
    assert (Nb : Needed p r (b, k)).
    { eapply need_pass; eauto. intros e He. apply Wo in He. subst e. intros [K|(K1 & K2 & K3 & _)]; tauto. }
    assert (Dh : hw (c d) <> hw (c r)).
    { assert (Cf : (nphys <= d \/ nphys <= r)%nat -> hw (c d) <> hw (c r)).
      { apply CD. exists b, k, i. split; auto. split; auto. split; auto. split; auto. intros (src & [O' _] & _). rewrite O in O'. discriminate O'. }
      destruct (Nat.lt_ge_cases d nphys) as [Ld'|Ld']; [|apply Cf; auto]. destruct (Nat.lt_ge_cases r nphys) as [Lr'|Lr']; [|apply Cf; auto].
      rewrite (CP d Ld'), (CP r Lr'). tauto. }
    rewrite rd_wr_other; [now apply R|congruence|]. intros (_ & _ & H). congruence.
Qed.

Lemma insn_rel b k i st st' m : insn_at p (b, k) i -> Rel (b, k) st st' ->
  exists st1, EM st' m i = (st1, snd (EX st m i)) /\ Rel (b, S k) (fst (EX st m i)) st1.
Proof.
  intros A R. pose proof (at_prog p _ _ A) as Hi. destruct (zext (uid i)) eqn:Z.
  { destruct (ZF i Hi Z) as (a & d & O & Ag & Va & Vd & Fa & Fd).
    assert (EXi : EX st m i = (wr p st d (rd st a), m)) by (unfold exec, transfer; rewrite O, Ag, Z; reflexivity).
    rewrite EXi. cbn [fst snd]. apply (zext_rel b k i a d); auto. }
  assert (D : (exists a d, copies i a d) \/ ((forall a d, ~ copies i a d) /\ transfer zext i = None /\ emit zext (paintinsn col i) = Some (paintinsn col i) /\ transfer zext (paintinsn col i) = None)).
  { unfold transfer, emit, paintinsn, copies. cbn [iop args uid]. rewrite Z. destruct (iop i) eqn:O.
    - destruct (wf_mov p W i Hi O) as (x & y & Ag). rewrite Ag. destruct x as [a| | |], y as [d| | |]; cbn [map paintloc]; [left; exists a, d; auto|..]; right; repeat split; intros; intros [_ X]; discriminate X.
    - right. split; [intros a d [X _]; discriminate X|]. destruct (args i) as [|[] [|[] [|]]]; cbn [map paintloc]; auto. }
  destruct D as [(a & d & C)|(NCp & T & E & T')].
  - assert (EXi : EX st m i = (wr p st d (rd st a), m)) by (unfold exec, transfer; destruct C as [O Ag]; rewrite O, Ag; reflexivity).
    rewrite EXi. cbn [fst snd]. exact (copy_rel b k i a d st st' m A C R).
  - unfold exec_emitted. rewrite E. unfold exec. rewrite T, T'.
    assert (I : map (rd st') (inputs (paintinsn col i)) = map (rd st) (inputs i)).
    { rewrite inputs_paint, map_map by auto. apply map_ext_in. intros r Hr. symmetry. apply (rel_read b k i); auto. now apply in_inputs. }
    rewrite I, outputs_paint by auto. cbn [uid paintinsn]. destruct (act (uid i) (map (rd st) (inputs i)) m) as [vs m']. cbn [fst snd].
    eexists. split; [reflexivity|]. intros r Nr. apply (writes_rel i b k); auto; [intros d; apply in_outputs|].
    destruct (Exists_dec (fun d => kills d r) (outputs i) (fun d => kills_dec d r)) as [X|X].
    + right. apply Exists_exists in X. exact X.
    + left. apply R. eapply need_pass; eauto. intros d Hd K. apply X. apply Exists_exists. exists d. split; auto. now apply in_outputs.
Qed.

Definition inside (pt : point) : Prop := forall bb, blk p (fst pt) = Some bb -> (snd pt <= length (il bb))%nat.
Lemma step_rel pt st st' m : inside pt -> Rel pt st st' ->
  match step1 M goto EX p (pt, st, m), step1 M goto EM p (pt, st', m) with
  | Some (pt1, st1, m1), Some (pt2, st2, m2) => pt1 = pt2 /\ m1 = m2 /\ inside pt1 /\ Rel pt1 st1 st2
  | None, None => True
  | _, _ => False
  end.
Proof.
  intros In R. destruct pt as [b k]. unfold step1. destruct (blk p b) as [bb|] eqn:Hb; auto. specialize (In bb Hb). cbn [snd] in In. destruct (nth_error (il bb) k) as [i|] eqn:Hk.
  - assert (A : insn_at p (b, k) i) by (exists bb; auto). destruct (insn_rel b k i st st' m A R) as (st1 & -> & R1).
    destruct (EX st m i) as [s2 m2]. cbn [fst snd] in *. split; auto. split; auto. split; auto. intros b2 H2. cbn [fst snd] in *. assert (b2 = bb) by congruence. subst b2.
    assert (k < length (il bb))%nat by (apply nth_error_Some; congruence). lia.
  - destruct (existsb (Nat.eqb (goto b m)) (succs bb)) eqn:E; auto. split; auto. split; auto. split; [intros b2 _; cbn [snd]; lia|]. intros r Nr. apply existsb_eqb in E.
    apply nth_error_None in Hk. assert (k = length (il bb)) as -> by lia. apply R. eapply need_edge; eauto. eapply wf_succ; eauto.
Qed.
Lemma steps_rel n : forall pt st st' m, inside pt -> Rel pt st st' ->
  match steps M goto EX p n (pt, st, m), steps M goto EM p n (pt, st', m) with
  | Some (pt1, st1, m1), Some (pt2, st2, m2) => pt1 = pt2 /\ m1 = m2 /\ Rel pt1 st1 st2
  | None, None => True
  | _, _ => False
  end.
Proof.
  induction n as [|n IH]; intros pt st st' m In R; cbn [steps]; auto. pose proof (step_rel pt st st' m In R) as H.
  destruct (step1 M goto EX p (pt, st, m)) as [[[pt1 st1] m1]|], (step1 M goto EM p (pt, st', m)) as [[[pt2 st2] m2]|]; auto; try contradiction.
  destruct H as (<- & <- & In1 & R1). now apply IH.
Qed.
End Sim.
