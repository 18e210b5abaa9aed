From Verif Require Import Base CUtil_Model Layout_Model Layout_Spec Layout_Proofs Call_Model Call_Spec.
From Verif Require CUtil_Proofs.
Local Open Scope N_scope.

(* --- align with an arbitrary second argument --- *)
Lemma ldiff_land y m : N.ldiff y m + N.land y m = y.
Proof.
  rewrite N.add_nocarry_lxor.
  - apply N.bits_inj. intros n. rewrite N.lxor_spec, N.ldiff_spec, N.land_spec.
    destruct (N.testbit y n), (N.testbit m n); reflexivity.
  - apply N.bits_inj. intros n. rewrite N.land_spec, N.ldiff_spec, N.land_spec, N.bits_0.
    destruct (N.testbit y n), (N.testbit m n); reflexivity.
Qed.
Lemma land_le_r y m : N.land y m <= m.
Proof. rewrite N.land_comm. pose proof (ldiff_land m y). lia. Qed.
Lemma align_ldiff x a : a <> 0 -> a <= W64 -> x + a - 1 < W64 -> align x a = N.ldiff (x + a - 1) (a - 1).
Proof.
  intros Ha Hw H. unfold align. destruct (N.eqb_spec a 0); [contradiction|]. rewrite N.mod_small by auto.
  apply N.bits_inj. intros n0. rewrite N.land_spec, N.ldiff_spec.
  destruct (N.lt_ge_cases n0 64) as [L|L].
  - now rewrite N.lnot_spec_low by auto.
  - rewrite (testbit_high (x + a - 1) n0) by (auto; lia). reflexivity.
Qed.
Lemma align_bounds x a : a <= W64 -> x + a < W64 -> x <= align x a /\ align x a <= x + a.
Proof.
  intros Hw H. destruct (N.eq_dec a 0) as [->|Ha].
  - unfold align. cbn. lia.
  - rewrite align_ldiff by (auto; lia). pose proof (ldiff_land (x + a - 1) (a - 1)).
    pose proof (land_le_r (x + a - 1) (a - 1)). lia.
Qed.

(* --- agreement of the two sides --- *)
Lemma placearg_retrievearg t vararg s : (vararg = true -> tybase t <> Tprim Pvoid) ->
  tybase t <> Tprim Pvoid -> one (placearg t vararg s) = retrievearg t vararg s.
Proof.
  intros _ H. unfold placearg, retrievearg.
  destruct (isstacktype t); auto.
  destruct (negb vararg && isfloatmode t && Nat.ltb (nfl s) Nfloatregargs)%bool; auto.
  destruct (negb vararg && isintmode t && Nat.ltb (nin s) Nintregargs)%bool; auto.
  destruct (tybase t) as [[]| | | | | | | | |]; auto. contradiction.
Qed.

Lemma void_class t s : tybase t = Tprim Pvoid -> Nat.leb (nfl s) 8 = true -> Nat.leb (nin s) 6 = true ->
  argclass t false s = Some ArgVoid.
Proof.
  intros H A B. unfold argclass, classify. rewrite H. unfold sufficientregs; cbn [needed fst snd Nat.add].
  unfold Nfloatregargs, Nintregargs. now rewrite A, B.
Qed.

Definition inregs (s : st) : Prop := (nfl s <= 8)%nat /\ (nin s <= 6)%nat.

Lemma intreg_inv s p s' : intreg s = Some (p, s') -> inregs s ->
  p = Pint_reg (nin s) /\ s' = St (nfl s) (S (nin s)) (aoff s) /\ (nin s < 6)%nat /\ inregs s'.
Proof.
  unfold intreg, inregs. destruct (Nat.ltb_spec (nin s) Nintregargs) as [L|L]; [|discriminate].
  intros E [A B]. injection E as <- <-. unfold Nintregargs in L. cbn. repeat split; auto; lia.
Qed.
Lemma fltreg_inv s p s' : fltreg s = Some (p, s') -> inregs s ->
  p = Pflt_reg (nfl s) /\ s' = St (S (nfl s)) (nin s) (aoff s) /\ (nfl s < 8)%nat /\ inregs s'.
Proof.
  unfold fltreg, inregs. destruct (Nat.ltb_spec (nfl s) Nfloatregargs) as [L|L]; [|discriminate].
  intros E [A B]. injection E as <- <-. unfold Nfloatregargs in L. cbn. repeat split; auto; lia.
Qed.

(* what one argument does *)
Definition place1 (t : ty) (vararg : bool) (a : argtype) (s : st) : option (list place * st) :=
  match a with
  | ArgVoid => Some ([], s)
  | ArgReg | ArgBig => one (placearg t vararg s)
  | ArgAggrI => one (intreg s)
  | ArgAggrF => one (fltreg s)
  | ArgAggrII => two intreg intreg s
  | ArgAggrIF => two intreg fltreg s
  | ArgAggrFI => two fltreg intreg s
  | ArgAggrFF => two fltreg fltreg s
  end.

(* the places of one argument, and how they move the state *)
Inductive moved (t : ty) (s : st) : list place -> st -> Prop :=
| mv_none : moved t s [] s
| mv_stack : moved t s [Pstack (aoff s) (tysize t)] (St (nfl s) (nin s) (add64 (aoff s) (tysize t)))
| mv_int : (nin s < 6)%nat -> moved t s [Pint_reg (nin s)] (St (nfl s) (S (nin s)) (aoff s))
| mv_flt : (nfl s < 8)%nat -> moved t s [Pflt_reg (nfl s)] (St (S (nfl s)) (nin s) (aoff s))
| mv_ii : (S (nin s) < 6)%nat -> moved t s [Pint_reg (nin s); Pint_reg (S (nin s))] (St (nfl s) (S (S (nin s))) (aoff s))
| mv_if : (nin s < 6)%nat -> (nfl s < 8)%nat -> moved t s [Pint_reg (nin s); Pflt_reg (nfl s)] (St (S (nfl s)) (S (nin s)) (aoff s))
| mv_fi : (nin s < 6)%nat -> (nfl s < 8)%nat -> moved t s [Pflt_reg (nfl s); Pint_reg (nin s)] (St (S (nfl s)) (S (nin s)) (aoff s))
| mv_ff : (S (nfl s) < 8)%nat -> moved t s [Pflt_reg (nfl s); Pflt_reg (S (nfl s))] (St (S (S (nfl s))) (nin s) (aoff s)).

Lemma placearg_moved t v s p s' : placearg t v s = Some (p, s') -> inregs s -> moved t s [p] s' /\ inregs s'.
Proof.
  unfold placearg. intros E R.
  destruct (isstacktype t). { injection E as <- <-. split; [constructor|exact R]. }
  destruct (negb v && isfloatmode t && Nat.ltb (nfl s) Nfloatregargs)%bool.
  { destruct (fltreg_inv _ _ _ E R) as (-> & -> & L & R'). split; [constructor; auto|auto]. }
  destruct (negb v && isintmode t && Nat.ltb (nin s) Nintregargs)%bool.
  { destruct (intreg_inv _ _ _ E R) as (-> & -> & L & R'). split; [constructor; auto|auto]. }
  injection E as <- <-. split; [constructor|exact R].
Qed.

Lemma place1_moved t v a s ps s' : place1 t v a s = Some (ps, s') -> inregs s -> moved t s ps s' /\ inregs s'.
Proof.
  intros E R. destruct a; cbn [place1] in E.
  - injection E as <- <-. split; [constructor|exact R].
  - destruct (placearg t v s) as [[p s1]|] eqn:P; [|discriminate]. injection E as <- <-. eapply placearg_moved; eauto.
  - destruct (placearg t v s) as [[p s1]|] eqn:P; [|discriminate]. injection E as <- <-. eapply placearg_moved; eauto.
  - destruct (intreg s) as [[p s1]|] eqn:P; [|discriminate]. injection E as <- <-.
    destruct (intreg_inv _ _ _ P R) as (-> & -> & L & R'). split; [constructor; auto|auto].
  - destruct (fltreg s) as [[p s1]|] eqn:P; [|discriminate]. injection E as <- <-.
    destruct (fltreg_inv _ _ _ P R) as (-> & -> & L & R'). split; [constructor; auto|auto].
  - unfold two in E. destruct (intreg s) as [[p s1]|] eqn:P; [|discriminate].
    destruct (intreg_inv _ _ _ P R) as (-> & -> & L & R'). destruct (intreg _) as [[q s2]|] eqn:Q in E; [|discriminate].
    injection E as <- <-. destruct (intreg_inv _ _ _ Q R') as (-> & -> & L2 & R2). cbn in L2. split; [exact (mv_ii t s L2)|auto].
  - unfold two in E. destruct (fltreg s) as [[p s1]|] eqn:P; [|discriminate].
    destruct (fltreg_inv _ _ _ P R) as (-> & -> & L & R'). destruct (intreg _) as [[q s2]|] eqn:Q in E; [|discriminate].
    injection E as <- <-. destruct (intreg_inv _ _ _ Q R') as (-> & -> & L2 & R2). cbn in L2. split; [exact (mv_fi t s L2 L)|auto].
  - unfold two in E. destruct (intreg s) as [[p s1]|] eqn:P; [|discriminate].
    destruct (intreg_inv _ _ _ P R) as (-> & -> & L & R'). destruct (fltreg _) as [[q s2]|] eqn:Q in E; [|discriminate].
    injection E as <- <-. destruct (fltreg_inv _ _ _ Q R') as (-> & -> & L2 & R2). cbn in L2. split; [exact (mv_if t s L L2)|auto].
  - unfold two in E. destruct (fltreg s) as [[p s1]|] eqn:P; [|discriminate].
    destruct (fltreg_inv _ _ _ P R) as (-> & -> & L & R'). destruct (fltreg _) as [[q s2]|] eqn:Q in E; [|discriminate].
    injection E as <- <-. destruct (fltreg_inv _ _ _ Q R') as (-> & -> & L2 & R2). cbn in L2. split; [exact (mv_ff t s L2)|auto].
Qed.

Lemma gencall_cons vs i t ts s : gencall vs i (t :: ts) s =
  let v := Nat.leb vs i in let s := argalign t v s in
  match argclass t v s with
  | None => None
  | Some a => match place1 t v a s with
              | None => None
              | Some (ps, s) => match gencall vs (S i) ts s with Some (r, s) => Some (ps :: r, s) | None => None end
              end
  end.
Proof. reflexivity. Qed.

Lemma agree vs ts : forall i s, inregs s ->
  (forall k t, nth_error ts k = Some t -> (vs <= i + k)%nat -> tybase t <> Tprim Pvoid) ->
  gencall vs i ts s = addarglocs vs i ts s.
Proof.
  induction ts as [|t ts IH]; intros i s R H; [reflexivity|].
  rewrite gencall_cons. cbn [addarglocs]. cbv zeta.
  set (v := Nat.leb vs i). set (s1 := argalign t v s).
  assert (inregs s1) as R1 by exact R.
  destruct (argclass t v s1) as [a|] eqn:EA; [|reflexivity].
  assert (place1 t v a s1 = match a with
               | ArgVoid => Some ([], s1)
               | ArgReg | ArgBig => retrievearg t v s1
               | ArgAggrI => one (intreg s1)
               | ArgAggrF => one (fltreg s1)
               | ArgAggrII => two intreg intreg s1
               | ArgAggrIF => two intreg fltreg s1
               | ArgAggrFI => two fltreg intreg s1
               | ArgAggrFF => two fltreg fltreg s1
               end) as E.
  { destruct a; try reflexivity; cbn [place1]; apply placearg_retrievearg.
    1,3: intros Hv; apply (H O t eq_refl); unfold v in Hv; apply Nat.leb_le in Hv; lia.
    all: intros Hv; destruct v eqn:Ev;
      [ apply (H O t eq_refl); auto; unfold v in Ev; apply Nat.leb_le in Ev; lia
      | destruct R1; rewrite void_class in EA; [discriminate|auto|apply Nat.leb_le; auto|apply Nat.leb_le; auto] ]. }
  rewrite <- E. destruct (place1 t v a s1) as [[ps s2]|] eqn:EP; [|reflexivity].
  destruct (place1_moved _ _ _ _ _ _ EP R1) as [_ R2].
  rewrite IH; auto. intros k u Hk L. apply (H (S k) u Hk). lia.
Qed.

(* --- where the places lie --- *)
Lemma argalign_bounds t v s : aoff s + 16 < W64 -> aoff s <= aoff (argalign t v s) /\
  (forall m, N.divide 8 m -> aoff s <= m -> aoff (argalign t v s) <= m) /\ aoff (argalign t v s) <= aoff s + 16.
Proof.
  intros B. unfold argalign; cbn [aoff]. pose proof (p2_le _ (alignment_p2 t)) as P8.
  pose proof (roundup_lt (aoff s) _ (alignment_pos t)) as L. pose proof (roundup_ge (aoff s) _ (alignment_pos t)) as G.
  rewrite alignto_spec by lia.
  assert (forall m, N.divide 8 m -> aoff s <= m -> roundup (aoff s) (alignment t) <= m) as M.
  { intros m D Lm. apply roundup_le; [apply alignment_pos| |auto].
    apply N.divide_trans with 8; auto. apply p2_max_div; [apply alignment_p2|unfold p2; lia|auto]. }
  destruct v; [repeat split; auto; lia|].
  pose proof (roundup_lt (roundup (aoff s) (alignment t)) 8 ltac:(lia)). pose proof (roundup_ge (roundup (aoff s) (alignment t)) 8 ltac:(lia)).
  rewrite align_roundup by (unfold p2; lia).
  repeat split; [lia| |lia]. intros m D Lm. apply roundup_le; auto; lia.
Qed.

Definition stackof (ps : list place) : list (N * N) :=
  flat_map (fun p => match p with Pstack o n => [(o, n)] | _ => [] end) ps.
Definition intsof (ps : list place) : list nat :=
  flat_map (fun p => match p with Pint_reg k => [k] | _ => [] end) ps.
Definition fltsof (ps : list place) : list nat :=
  flat_map (fun p => match p with Pflt_reg k => [k] | _ => [] end) ps.

(* consecutive stack regions, starting at lo and ending by hi *)
Fixpoint chain (lo : N) (l : list (N * N)) (hi : N) : Prop :=
  match l with [] => lo <= hi | (o, n) :: l => lo <= o /\ chain (o + n) l hi end.
Lemma chain_weak lo lo' l hi : lo' <= lo -> chain lo l hi -> chain lo' l hi.
Proof. destruct l as [|[o n] l]; cbn; [lia|]. intros H [A B]. split; [lia|exact B]. Qed.
Lemma chain_weak_r lo l hi hi' : hi <= hi' -> chain lo l hi -> chain lo l hi'.
Proof. revert lo; induction l as [|[o n] l IH]; cbn; intros lo H; [lia|]. intros [A B]. auto. Qed.
Lemma chain_app lo l m hi hi' : chain lo l hi -> chain hi m hi' -> chain lo (l ++ m) hi'.
Proof.
  revert lo; induction l as [|[o n] l IH]; cbn; intros lo H K; [eapply chain_weak; eauto|].
  destruct H; split; auto.
Qed.
Lemma chain_le lo l hi : chain lo l hi -> lo <= hi.
Proof. revert lo; induction l as [|[o n] l IH]; cbn; intros lo H; auto. destruct H as [A B]. apply IH in B. lia. Qed.
Lemma chain_in lo l hi o n : chain lo l hi -> In (o, n) l -> lo <= o /\ o + n <= hi.
Proof.
  revert lo; induction l as [|[o' n'] l IH]; cbn; intros lo H []; destruct H as [A B].
  - injection H0 as -> ->. apply chain_le in B. lia.
  - apply IH in B; auto. lia.
Qed.
Lemma chain_order lo l hi i j o n o' n' : chain lo l hi -> (i < j)%nat ->
  nth_error l i = Some (o, n) -> nth_error l j = Some (o', n') -> o + n <= o'.
Proof.
  revert lo i j; induction l as [|[a b] l IH]; intros lo [|i] [|j] C L Hi Hj; cbn in *; try discriminate; try lia.
  - injection Hi as -> ->. destruct C as [_ C]. apply nth_error_In in Hj. pose proof (chain_in _ _ _ _ _ C Hj). lia.
  - destruct C as [_ C]. apply (IH (a + b) i j); auto; lia.
Qed.

Lemma gencall_chain vs ts : forall i s pl s', inregs s -> aoff s + room ts < W64 ->
  gencall vs i ts s = Some (pl, s') ->
  chain (aoff s) (stackof (concat pl)) (aoff s') /\ aoff s' <= aoff s + room ts /\
  intsof (concat pl) = seq (nin s) (nin s' - nin s) /\ fltsof (concat pl) = seq (nfl s) (nfl s' - nfl s) /\
  (nin s <= nin s')%nat /\ (nfl s <= nfl s')%nat /\ inregs s' /\ length pl = length ts.
Proof.
  induction ts as [|t ts IH]; intros i s pl s' R B E.
  - cbn in E. injection E as <- <-. cbn. rewrite !Nat.sub_diag. repeat split; auto; try lia; apply R.
  - rewrite gencall_cons in E. cbv zeta in E. cbn [room] in *.
    set (v := Nat.leb vs i) in *. set (s1 := argalign t v s) in *.
    assert (inregs s1) as R1 by exact R.
    destruct (argclass t v s1) as [a|] eqn:EA; [|discriminate].
    destruct (place1 t v a s1) as [[ps s2]|] eqn:EP; [|discriminate].
    destruct (place1_moved _ _ _ _ _ _ EP R1) as [M R2].
    destruct (gencall vs (S i) ts s2) as [[r s3]|] eqn:ER; [|discriminate]. injection E as <- <-.
    destruct (argalign_bounds t v s ltac:(lia)) as (A1 & _ & A3). fold s1 in A1, A3.
    assert (nin s1 = nin s /\ nfl s1 = nfl s) as [N1 N2] by (split; reflexivity).
    assert (aoff s2 <= aoff s1 + extent t /\ chain (aoff s1) (stackof ps) (aoff s2) /\
            intsof ps = seq (nin s) (nin s2 - nin s) /\ fltsof ps = seq (nfl s) (nfl s2 - nfl s) /\
            (nin s <= nin s2)%nat /\ (nfl s <= nfl s2)%nat) as (K1 & K2 & K3 & K4 & K5 & K6).
    { rewrite <- N1, <- N2. clear - M B A3.
      assert (tysize t = extent t) as TE by (apply tysize_extent; lia).
      inversion M; subst; cbn [stackof intsof fltsof flat_map app nin nfl aoff chain];
        rewrite ?TE, ?add64_small by lia;
        repeat match goal with |- context[(S ?a - ?a)%nat] => replace (S a - a)%nat with 1%nat by lia end;
        repeat match goal with |- context[(S (S ?a) - ?a)%nat] => replace (S (S a) - a)%nat with 2%nat by lia end;
        rewrite ?Nat.sub_diag; cbn [seq]; repeat split; try lia. }
    destruct (IH (S i) s2 r s3 R2 ltac:(lia) ER) as (I1 & I2 & I3 & I4 & I5 & I6 & I7 & I8).
    cbn [concat]. unfold stackof, intsof, fltsof in *. rewrite !flat_map_app.
    split. { eapply chain_app; [|exact I1]. eapply chain_weak; [|exact K2]. exact A1. }
    split; [lia|].
    split. { rewrite K3, I3.
      replace (nin s3 - nin s)%nat with ((nin s2 - nin s) + (nin s3 - nin s2))%nat by lia.
      rewrite seq_app. f_equal. f_equal. lia. }
    split. { rewrite K4, I4. replace (nfl s3 - nfl s)%nat with ((nfl s2 - nfl s) + (nfl s3 - nfl s2))%nat by lia.
      rewrite seq_app. f_equal. f_equal. lia. }
    cbn [length]. repeat split; try lia; apply I7.
Qed.

(* the area reserved covers everything placed on the stack *)
Lemma argsz_covers vs ts : forall i s pl s' z, inregs s -> aoff s <= z -> N.divide 8 z -> z + room ts + 16 < W64 ->
  gencall vs i ts s = Some (pl, s') -> aoff s' <= argsz ts z /\ N.divide 16 (argsz ts z).
Proof.
  induction ts as [|t ts IH]; intros i s pl s' z R L D B E.
  - cbn in E. injection E as <- <-. cbn [argsz room] in *.
    assert (exists p, 16 = 2 ^ p) as [p Ep] by (exists 4; reflexivity).
    pose proof (CUtil_Proofs.align_spec z 4) as S. cbv zeta in S. change (2 ^ 4) with 16 in S.
    destruct S as (S1 & S2 & _); [unfold W64; lia|lia|]. split; [lia|]. apply N.mod_divide; [discriminate|auto].
  - rewrite gencall_cons in E. cbv zeta in E. cbn [room] in *.
    set (v := Nat.leb vs i) in *. set (s1 := argalign t v s) in *.
    assert (inregs s1) as R1 by exact R.
    destruct (argclass t v s1) as [a|] eqn:EA; [|discriminate].
    destruct (place1 t v a s1) as [[ps s2]|] eqn:EP; [|discriminate].
    destruct (place1_moved _ _ _ _ _ _ EP R1) as [M R2].
    destruct (gencall vs (S i) ts s2) as [[r s3]|] eqn:ER; [|discriminate]. injection E as <- <-.
    destruct (argalign_bounds t v s ltac:(lia)) as (A1 & A2 & A3). fold s1 in A1, A2, A3.
    pose proof (A2 z D L) as A4.
    assert (tysize t = extent t) as TE by (apply tysize_extent; lia).
    cbn [argsz]. rewrite TE.
    assert (align z (N.min (extent t) Ptrsz) = z) as ->.
    { destruct (N.eq_dec (extent t) 0) as [->|N0]; [reflexivity|].
      rewrite align_ldiff by (unfold Ptrsz, W64 in *; lia).
      destruct D as [k ->]. set (m := N.min (extent t) Ptrsz - 1). assert (m < 8) as Hm by (unfold m, Ptrsz; lia).
      replace (k * 8 + N.min (extent t) Ptrsz - 1) with (k * 8 + m) by (unfold m, Ptrsz; lia).
      assert (k * 8 = N.shiftl k 3) as Es by (rewrite N.shiftl_mul_pow2; reflexivity).
      assert (N.land (k * 8) m = 0) as NC.
      { apply N.bits_inj. intros b. rewrite N.land_spec, N.bits_0, Es.
        destruct (N.lt_ge_cases b 3) as [Lb|Lb]; [now rewrite N.shiftl_spec_low by auto|].
        assert (N.testbit m b = false) as ->; [|apply andb_false_r].
        destruct (N.eq_dec m 0) as [->|Mz]; [apply N.bits_0|].
        apply N.bits_above_log2. apply N.log2_lt_pow2; [lia|].
        apply N.lt_le_trans with (2 ^ 3); [exact Hm|]. apply N.pow_le_mono_r; [discriminate|auto]. }
      rewrite N.add_nocarry_lxor by exact NC.
      apply N.bits_inj. intros b. rewrite N.ldiff_spec, N.lxor_spec.
      assert (N.testbit (N.land (k * 8) m) b = false) as Q by (rewrite NC; apply N.bits_0). rewrite N.land_spec in Q.
      destruct (N.testbit (k * 8) b), (N.testbit m b); try reflexivity; discriminate. }
    rewrite add64_small by lia.
    pose proof (roundup_ge (z + extent t) 8 ltac:(lia)). pose proof (roundup_lt (z + extent t) 8 ltac:(lia)).
    rewrite align_roundup by (unfold p2; lia).
    eapply IH; eauto; [|apply roundup_div|lia].
    assert (aoff s2 <= aoff s1 + extent t) as K.
    { clear - M TE B A3 L. inversion M; subst; cbn [aoff]; try lia. rewrite TE, add64_small by lia. lia. }
    lia.
Qed.

(* --- every argument is held entirely --- *)
Lemma tysize_base t : tysize t = tysize (tybase t).
Proof. induction t using ty_ind'; try reflexivity. exact IHt. Qed.
Lemma float_size t : isfloatmode t = true -> tysize t <= 8.
Proof. unfold isfloatmode. rewrite tysize_base. destruct (tybase t) as [[]| | | | | | | | |]; intros H; try discriminate H; cbv; discriminate. Qed.
Lemma int_size t : isintmode t = true -> isstacktype t = false -> tysize t <= 8.
Proof.
  unfold isintmode. intros H S. rewrite S in H. cbn [orb] in H. apply andb_prop in H as [_ H].
  rewrite !orb_true_iff, !N.eqb_eq in H. lia.
Qed.
Lemma extent_base t : extent t = extent (tybase t).
Proof. induction t using ty_ind'; try reflexivity. exact IHt. Qed.

Definition aggclass (sz : N) (p : passin * passin) : option argtype :=
  let '(p0, p1) := p in
  if (passin_eqb p0 PassInMemory || passin_eqb p1 PassInMemory)%bool then Some ArgBig
  else match p0 with
       | PassInInt => if sz <=? 8 then Some ArgAggrI
                      else match p1 with PassInInt => Some ArgAggrII | PassInSSE => Some ArgAggrIF | _ => None end
       | PassInSSE => if sz <=? 8 then Some ArgAggrF
                      else match p1 with PassInInt => Some ArgAggrFI | PassInSSE => Some ArgAggrFF | _ => None end
       | _ => None
       end.
Lemma classify_eq t : classify t =
  match tybase t with
  | Tprim Pvoid => Some ArgVoid
  | _ => if isstacktype t then
           if (isaggregate t && (tysize t <=? 16))%bool
           then aggclass (tysize t) (fst (classify_rec t ((PassInNoPref, PassInNoPref), 0)))
           else Some ArgBig
         else Some ArgReg
  end.
Proof. reflexivity. Qed.
Lemma classify_stack t : isstacktype t = true -> classify t =
  if (isaggregate t && (tysize t <=? 16))%bool
  then aggclass (tysize t) (fst (classify_rec t ((PassInNoPref, PassInNoPref), 0))) else Some ArgBig.
Proof.
  intros H. rewrite classify_eq, H. unfold isstacktype in H. destruct (tybase t) as [[]| | | | | | | | |]; auto; discriminate.
Qed.

Lemma classify_size t a : classify t = Some a ->
  match a with
  | ArgAggrI | ArgAggrF => tysize t <= 8
  | ArgAggrII | ArgAggrIF | ArgAggrFI | ArgAggrFF => 8 < tysize t <= 16
  | ArgVoid => tybase t = Tprim Pvoid
  | ArgReg => isstacktype t = false
  | ArgBig => True
  end.
Proof.
  destruct (isstacktype t) eqn:ES.
  - rewrite classify_stack by auto.
    destruct (isaggregate t); cbn [andb]; [|now intros [= <-]].
    destruct (N.leb_spec (tysize t) 16); [|now intros [= <-]].
    destruct (fst _) as [p0 p1]. unfold aggclass.
    destruct (N.leb_spec (tysize t) 8), p0, p1; cbn [passin_eqb orb]; intros [= <-]; auto; lia.
  - rewrite classify_eq, ES. intros H. assert (a = ArgVoid /\ tybase t = Tprim Pvoid \/ a = ArgReg) as [[-> E]| ->]; auto.
    destruct (tybase t) as [[]| | | | | | | | |]; injection H as <-; auto.
Qed.

Lemma placearg_holds t v s p s1 : tysize t = extent t -> N.divide (alignment t) (aoff s) ->
  placearg t v s = Some (p, s1) -> holds t [p].
Proof.
  intros TE D. assert (holds t [Pstack (aoff s) (tysize t)]) as HS by (cbn [holds]; rewrite TE; auto).
  unfold placearg. destruct (isstacktype t) eqn:S; [now intros [= <- <-]|].
  destruct (isfloatmode t) eqn:F.
  { apply float_size in F. rewrite TE in F. rewrite andb_true_r.
    destruct (negb v && Nat.ltb (nfl s) Nfloatregargs)%bool.
    - unfold fltreg. destruct (Nat.ltb _ _); [|discriminate]. intros [= <- <-]. exact F.
    - destruct (negb v && isintmode t && Nat.ltb (nin s) Nintregargs)%bool; [|now intros [= <- <-]].
      unfold intreg. destruct (Nat.ltb _ _); [|discriminate]. intros [= <- <-]. exact F. }
  rewrite andb_false_r. cbn [andb]. destruct (isintmode t) eqn:I.
  { apply int_size in I; auto. rewrite TE in I.
    destruct (negb v && true && Nat.ltb (nin s) Nintregargs)%bool; [|now intros [= <- <-]].
    unfold intreg. destruct (Nat.ltb _ _); [|discriminate]. intros [= <- <-]. exact I. }
  rewrite andb_false_r. cbn [andb]. now intros [= <- <-].
Qed.

Lemma place1_holds t v a s ps s' : place1 t v a s = Some (ps, s') -> argclass t v s = Some a -> extent t < W64 ->
  N.divide (alignment t) (aoff s) -> holds t ps.
Proof.
  intros E C W D. pose proof (tysize_extent _ W) as TE.
  assert (match a with
  | ArgAggrI | ArgAggrF => tysize t <= 8
  | ArgAggrII | ArgAggrIF | ArgAggrFI | ArgAggrFF => 8 < tysize t <= 16
  | ArgVoid => tybase t = Tprim Pvoid
  | ArgReg | ArgBig => True
  end) as Q.
  { unfold argclass in C. destruct v.
    - destruct (sufficientregs ArgBig (nfl s) (nin s)); injection C as <-; auto.
    - destruct (classify t) as [c|] eqn:K; [|discriminate]. apply classify_size in K.
      destruct (sufficientregs c (nfl s) (nin s)); injection C as <-; auto. destruct c; auto. }
  rewrite TE in Q. pose proof (fun p s1 => placearg_holds t v s p s1 TE D) as PA.
  destruct a; cbn [place1] in E.
  - injection E as <- <-. cbn [holds]. rewrite extent_base, Q. reflexivity.
  - destruct (placearg t v s) as [[p s1]|] eqn:P; [|discriminate]. injection E as <- <-. eauto.
  - destruct (placearg t v s) as [[p s1]|] eqn:P; [|discriminate]. injection E as <- <-. eauto.
  - unfold intreg in E. destruct (Nat.ltb _ _); [|discriminate]. injection E as <- <-. exact Q.
  - unfold fltreg in E. destruct (Nat.ltb _ _); [|discriminate]. injection E as <- <-. exact Q.
  - unfold two, intreg in E. destruct (Nat.ltb (nin s) _); [|discriminate]. destruct (Nat.ltb _ _); [|discriminate]. injection E as <- <-. exact Q.
  - unfold two, intreg, fltreg in E. destruct (Nat.ltb (nfl s) _); [|discriminate]. destruct (Nat.ltb _ _); [|discriminate]. injection E as <- <-. exact Q.
  - unfold two, intreg, fltreg in E. destruct (Nat.ltb (nin s) _); [|discriminate]. destruct (Nat.ltb _ _); [|discriminate]. injection E as <- <-. exact Q.
  - unfold two, fltreg in E. destruct (Nat.ltb (nfl s) _); [|discriminate]. destruct (Nat.ltb _ _); [|discriminate]. injection E as <- <-. exact Q.
Qed.

Lemma argalign_div t v s : aoff s + 16 < W64 -> N.divide (alignment t) (aoff (argalign t v s)).
Proof.
  intros B. unfold argalign; cbn [aoff]. pose proof (p2_le _ (alignment_p2 t)) as P8.
  pose proof (roundup_lt (aoff s) _ (alignment_pos t)) as L.
  rewrite alignto_spec by lia. destruct v; [apply roundup_div|].
  pose proof (roundup_lt (roundup (aoff s) (alignment t)) 8 ltac:(lia)).
  rewrite align_roundup by (unfold p2; lia).
  apply N.divide_trans with 8; [|apply roundup_div]. apply p2_max_div; [apply alignment_p2|unfold p2; lia|auto].
Qed.

Lemma gencall_holds vs ts : forall i s pl s', inregs s -> aoff s + room ts < W64 ->
  gencall vs i ts s = Some (pl, s') -> Forall2 holds ts pl.
Proof.
  induction ts as [|t ts IH]; intros i s pl s' R B E.
  - cbn in E. injection E as <- <-. constructor.
  - rewrite gencall_cons in E. cbv zeta in E. cbn [room] in *.
    set (v := Nat.leb vs i) in *. set (s1 := argalign t v s) in *.
    assert (inregs s1) as R1 by exact R.
    destruct (argclass t v s1) as [a|] eqn:EA; [|discriminate].
    destruct (place1 t v a s1) as [[ps s2]|] eqn:EP; [|discriminate].
    destruct (place1_moved _ _ _ _ _ _ EP R1) as [M R2].
    destruct (gencall vs (S i) ts s2) as [[r s3]|] eqn:ER; [|discriminate]. injection E as <- <-.
    destruct (argalign_bounds t v s ltac:(lia)) as (A1 & _ & A3). fold s1 in A1, A3.
    constructor.
    + eapply place1_holds; eauto; [lia|]. apply argalign_div. lia.
    + eapply IH; eauto. assert (tysize t = extent t) as TE by (apply tysize_extent; lia).
      clear - M TE B A3. inversion M; subst; cbn [aoff]; try lia. rewrite TE, add64_small by lia. lia.
Qed.

(* --- when a call can be compiled --- *)
Lemma placearg_some t v s : exists r, placearg t v s = Some r.
Proof.
  unfold placearg. destruct (isstacktype t); eauto.
  destruct (Nat.ltb (nfl s) Nfloatregargs) eqn:A; [|rewrite andb_false_r].
  - destruct (negb v && isfloatmode t)%bool; cbn [andb].
    + unfold fltreg. rewrite A. eauto.
    + destruct (Nat.ltb (nin s) Nintregargs) eqn:B; [|rewrite andb_false_r; eauto].
      destruct (negb v && isintmode t)%bool; cbn [andb]; eauto. unfold intreg. rewrite B. eauto.
  - destruct (Nat.ltb (nin s) Nintregargs) eqn:B; [|rewrite andb_false_r; eauto].
    destruct (negb v && isintmode t)%bool; cbn [andb]; eauto. unfold intreg. rewrite B. eauto.
Qed.

Lemma gencall_some vs ts : forall i s, inregs s ->
  (forall k t, nth_error ts k = Some t -> (i + k < vs)%nat -> classify t <> None /\ classify t <> Some ArgAggrF) ->
  exists r, gencall vs i ts s = Some r.
Proof.
  induction ts as [|t ts IH]; intros i s R H; [eexists; reflexivity|].
  rewrite gencall_cons. cbv zeta. set (v := Nat.leb vs i). set (s1 := argalign t v s).
  assert (inregs s1) as R1 by exact R.
  assert (exists a, argclass t v s1 = Some a /\ a <> ArgAggrF /\ (sufficientregs a (nfl s1) (nin s1) = true \/ a = ArgBig)) as (a & EA & NF & SF).
  { unfold argclass. destruct v eqn:Ev.
    - exists ArgBig. destruct (sufficientregs ArgBig (nfl s1) (nin s1)); repeat split; auto; discriminate.
    - unfold v in Ev. apply Nat.leb_gt in Ev. destruct (H O t eq_refl ltac:(lia)) as [H1 H2].
      destruct (classify t) as [c|]; [|contradiction].
      destruct (sufficientregs c (nfl s1) (nin s1)) eqn:Es.
      + exists c. repeat split; auto. congruence.
      + exists ArgBig. repeat split; auto. discriminate. }
  rewrite EA. destruct (placearg_some t v s1) as [[p sp] PA].
  assert (exists ps s2, place1 t v a s1 = Some (ps, s2)) as (ps & s2 & EP).
  { destruct SF as [SF| ->]; [|cbn [place1]; rewrite PA; cbn [one]; eauto].
    unfold sufficientregs, Nfloatregargs, Nintregargs in SF. apply andb_prop in SF as [S1 S2].
    apply Nat.leb_le in S1, S2.
    destruct a; cbn [needed fst snd] in S1, S2; cbn [place1]; try (rewrite PA; cbn [one]; eauto; fail); eauto;
      unfold one, two, intreg, fltreg, Nfloatregargs, Nintregargs; cbn [nin nfl];
      try (repeat (match goal with |- context[Nat.ltb ?x ?y] => rewrite (proj2 (Nat.ltb_lt x y)) by lia end; cbn [nin nfl]); eauto).
    contradiction. }
  rewrite EP. destruct (place1_moved _ _ _ _ _ _ EP R1) as [_ R2].
  destruct (IH (S i) s2 R2) as [[r s3] ER].
  { intros k u Hk L. apply (H (S k) u Hk). lia. }
  rewrite ER. eauto.
Qed.

(* --- classification --- *)
Notation NP := PassInNoPref.
Lemma join_some c n : n <> NP -> join c n <> NP.
Proof. destruct c, n; cbn; congruence. Qed.
Lemma join_keep c n : c <> NP -> join c n <> NP.
Proof. destruct c, n; cbn; congruence. Qed.

Fixpoint crec_l (l : list ty) s := match l with [] => s | x :: l => crec_l l (classify_rec x (fst s, alignto (snd s) x)) end.
Fixpoint crec_m (l : list (string * ty)) s :=
  match l with [] => s | (_, x) :: l => crec_m l (classify_rec x (fst s, alignto (snd s) x)) end.
Lemma crec_ml ms s : crec_m ms s = crec_l (map snd ms) s.
Proof. revert s; induction ms as [|[n x] l IH]; intros s; cbn [crec_m crec_l map snd]; auto. Qed.

(* q is marked wherever the bytes [off, off + r) begin in the first or reach into the second eightbyte *)
Definition touched (off r : N) (p q : passin * passin) : Prop :=
  (fst p <> NP -> fst q <> NP) /\ (snd p <> NP -> snd q <> NP) /\
  (0 < r -> off < 8 -> fst q <> NP) /\ (0 < r -> 8 < off + r -> snd q <> NP \/ fst q = PassInMemory) /\
  (8 <= off -> fst q = fst p) /\ (r = 0 -> q = p).

Definition marks (t : ty) : Prop := forall p off, plain t -> N.divide (alignment t) off -> off + extent t <= 16 ->
  (off = 0 -> p = (NP, NP)) ->
  exists q, classify_rec t (p, off) = (q, off + extent t) /\ touched off (extent t) p q.

Lemma touched_refl off p : touched off 0 p p.
Proof. unfold touched. repeat split; auto; lia. Qed.

Lemma touched_step off r r' e al p0 p q : touched off r p0 p -> p2 al -> N.divide al off -> r' = roundup r al ->
  touched (off + r') e p q -> touched off (r' + e) p0 q.
Proof.
  intros (T1 & T2 & T3 & T4 & T5 & T6) P2 D -> (Q1 & Q2 & Q3 & Q4 & Q5 & Q6).
  assert (al <> 0) as Az by (destruct P2 as [->|[->|[->| ->]]]; discriminate).
  pose proof (roundup_ge r _ Az) as R1.
  assert (off + r <= 8 -> off + roundup r al <= 8) as R8.
  { intros L. replace (off + roundup r al) with (roundup (off + r) al).
    - apply roundup_le; auto. apply p2_max_div; [auto|unfold p2; lia|apply p2_le; auto].
    - rewrite (N.add_comm off r), roundup_add by auto. apply N.add_comm. }
  assert (r = 0 -> roundup r al = 0) as R0.
  { intros ->. apply roundup_id; auto. apply N.divide_0_r. }
  unfold touched. repeat split; auto.
  - intros P L. destruct (N.eq_dec r 0) as [Er|Nr]; [|apply Q1, T3; auto; lia].
    rewrite (R0 Er) in *. apply Q3; lia.
  - intros P L. destruct (N.lt_ge_cases 8 (off + r)) as [L8|L8].
    + destruct (N.eq_dec r 0) as [Er|Nr].
      * rewrite (R0 Er) in *. apply Q4; lia.
      * destruct (T4 ltac:(lia) L8) as [K|K]; auto. right. rewrite Q5; auto. lia.
    + specialize (R8 L8). apply Q4; lia.
  - intros L. rewrite Q5, T5; auto. lia.
  - intros Z. rewrite Q6, T6; auto; lia.
Qed.

Lemma crec_l_marks al ts : Forall (fun t => marks t /\ plain t /\ N.divide (alignment t) al) ts ->
  forall p0 p off r, N.divide al off -> off + fold_left tupext ts r <= 16 -> (off = 0 -> p0 = (NP, NP)) -> touched off r p0 p ->
  exists q, crec_l ts (p, off + r) = (q, off + fold_left tupext ts r) /\ touched off (fold_left tupext ts r) p0 q.
Proof.
  induction 1 as [|t ts (M & PL & D) F IH]; intros p0 p off r Do B Z T; cbn [crec_l fold_left].
  - eauto.
  - cbn [fst snd fold_left] in *. pose proof (fold_tupext_ge ts (tupext r t)) as G.
    assert (tupext r t = roundup r (alignment t) + extent t) as Et by reflexivity.
    assert (N.divide (alignment t) off) as Do2 by (eapply N.divide_trans; eauto).
    assert (roundup (off + r) (alignment t) = off + roundup r (alignment t)) as RR.
    { rewrite (N.add_comm off r), roundup_add by (auto using alignment_pos). apply N.add_comm. }
    rewrite alignto_spec by (rewrite RR; unfold W64; lia). rewrite RR.
    destruct (M p (off + roundup r (alignment t)) PL) as (q & Eq & Tq).
    { apply N.divide_add_r; [auto|apply roundup_div]. }
    { lia. }
    { intros Ez. pose proof (roundup_ge r _ (alignment_pos t)). destruct T as (_ & _ & _ & _ & _ & T6). rewrite T6 by lia. apply Z. lia. }
    rewrite Eq. replace (off + roundup r (alignment t) + extent t) with (off + tupext r t) by lia.
    apply IH; auto. rewrite Et. eapply touched_step; eauto. apply alignment_p2.
Qed.

Lemma touched_round off r al p q : p2 al -> N.divide al off -> touched off r p q -> touched off (roundup r al) p q.
Proof.
  intros P D T. rewrite <- (N.add_0_r (roundup r al)). eapply touched_step; eauto.
  unfold touched. repeat split; auto; lia.
Qed.

Lemma marks_scalar a e new p off : new <> NP -> e = a -> p2 a -> N.divide a off ->
  off + e <= 16 -> touched off e p (joinat off new p).
Proof.
  intros Hn E P D B. unfold joinat, touched. subst e.
  assert (off < 8 -> off + a <= 8) as L8.
  { intros L. destruct D as [k ->]. destruct P as [->|[->|[->| ->]]]; lia. }
  destruct (N.eqb_spec (off / 8) 0) as [Z|Z]; cbn [fst snd].
  - assert (off < 8) as L by (apply N.div_small_iff in Z; [auto|discriminate]).
    repeat split; auto using join_keep, join_some; try lia; destruct P as [->|[->|[->| ->]]]; lia.
  - assert (8 <= off) as L. { apply N.le_ngt. intros L. apply Z. now apply N.div_small. }
    repeat split; auto using join_keep, join_some; try lia; destruct P as [->|[->|[->| ->]]]; lia.
Qed.

Lemma classify_rec_pre t off : N.divide (alignment t) off -> off + extent t <= 16 ->
  align (add64 off (tysize t)) (tyalign t) = off + extent t /\ (16 <? add64 off (tysize t)) = false.
Proof.
  intros D B. assert (off + extent t < W64) as W by (unfold W64; lia).
  rewrite tysize_extent, add64_small, tyalign_spec by lia.
  assert (roundup (off + extent t) (alignment t) = off + extent t) as RI.
  { apply roundup_id; [apply alignment_pos|]. apply N.divide_add_r; [auto|apply extent_div]. }
  split; [|now apply N.ltb_ge]. rewrite align_roundup; [exact RI|apply alignment_p2|now rewrite RI].
Qed.

Lemma and_all {A} (P : A -> Prop) l : fold_right and True (map P l) -> Forall P l.
Proof. induction l; cbn; [constructor|]. intros [H K]. constructor; auto. Qed.

Lemma classify_marks t : marks t.
Proof.
  induction t using ty_ind'; intros pp off PL D B Z0;
    destruct (classify_rec_pre _ off D B) as [FIN C16].
  - assert (p = Pvoid \/ exists new, new <> NP /\ classify_rec (Tprim p) (pp, off) = (joinat off new pp, off + extent (Tprim p)) /\ p <> Pvoid) as [->|(new & Hn & -> & NV)].
    { destruct p; [now left|..]; right; cbn [classify_rec]; rewrite C16, FIN; eexists; (split; [|split; [reflexivity|]]); discriminate. }
    + exists pp. cbn [classify_rec]. rewrite C16, FIN. split; auto. apply touched_refl.
    + eexists. split; [reflexivity|]. apply (marks_scalar (alignment (Tprim p))); auto; [|apply alignment_p2].
      destruct p; cbn; auto. contradiction.
  - cbn [classify_rec]. rewrite C16, FIN. eexists. split; [reflexivity|].
    apply (marks_scalar 8); auto; [discriminate|unfold p2; lia].
  - cbn [classify_rec]. rewrite C16, FIN. eexists. split; [reflexivity|]. cbn [extent] in *. unfold touched; cbn [fst snd].
    repeat split; intros; try (apply join_some; discriminate); try lia. left. apply join_some. discriminate.
  - cbn [classify_rec]. rewrite C16, FIN. eexists. split; [reflexivity|].
    apply (marks_scalar 8); auto; [discriminate|unfold p2; lia].
  - cbn [classify_rec]. rewrite C16, FIN. cbn [extent alignment] in B, D |- *. assert (off = 0) as -> by lia.
    rewrite Z0 by auto. eexists. split; [reflexivity|]. unfold touched.
    repeat split; intros; try discriminate; try lia; auto.
  - cbn [classify_rec plain alignment extent] in *. rewrite C16, FIN. destruct (IHt pp off PL D B Z0) as (q & -> & T). eauto.
  - cbn [plain alignment] in PL, D. destruct n as [n|].
    2: { cbn [classify_rec extent] in *. rewrite C16, FIN. exists pp. split; auto. apply touched_refl. }
    change (classify_rec (Tarray (Some n) t) (pp, off)) with
      (if 16 <? add64 off (tysize (Tarray (Some n) t)) then ((PassInMemory, PassInMemory), off)
       else (fst (N.iter n (classify_rec t) (pp, off)),
             align (add64 off (tysize (Tarray (Some n) t))) (tyalign (Tarray (Some n) t)))).
    rewrite C16, FIN. cbn [extent] in *. clear C16 FIN.
    assert (forall k, k <= n -> exists q, N.iter k (classify_rec t) (pp, off) = (q, off + k * extent t) /\ touched off (k * extent t) pp q) as K.
    { intros k. induction k as [|k IH] using N.peano_ind; intros Hk.
      - exists pp. cbn [N.iter N.mul]. rewrite N.add_0_r. split; auto. apply touched_refl.
      - destruct IH as (q & E & T); [lia|]. rewrite N.iter_succ, E.
        destruct (IHt q (off + k * extent t) PL) as (q2 & E2 & T2).
        + apply N.divide_add_r; auto. apply N.divide_mul_r, extent_div.
        + nia.
        + intros Ez. destruct T as (_ & _ & _ & _ & _ & T6). rewrite T6 by lia. apply Z0. lia.
        + exists q2. rewrite E2. replace (N.succ k * extent t) with (k * extent t + extent t) by lia. split; [f_equal; lia|].
          eapply touched_step; [exact T|apply alignment_p2 with (t := t)|exact D| |exact T2].
          symmetry. apply roundup_id; [apply alignment_pos|]. apply N.divide_mul_r, extent_div. }
    destruct (K n (N.le_refl n)) as (q & -> & T). eauto.
  - change (classify_rec (Ttuple ts) (pp, off)) with
      (if 16 <? add64 off (tysize (Ttuple ts)) then ((PassInMemory, PassInMemory), off)
       else (fst (crec_l ts (pp, off)), align (add64 off (tysize (Ttuple ts))) (tyalign (Ttuple ts)))).
    rewrite C16, FIN. cbn [plain] in PL. apply and_all in PL.
    change (extent (Ttuple ts)) with (roundup (fold_left tupext ts 0) (alignment (Ttuple ts))) in *.
    pose proof (roundup_ge (fold_left tupext ts 0) _ (alignment_pos (Ttuple ts))).
    destruct (crec_l_marks (alignment (Ttuple ts)) ts) with (p0 := pp) (p := pp) (off := off) (r := 0) as (q & E & T); auto.
    + rewrite Forall_forall in *. intros x Hx. repeat split; auto.
      apply p2_max_div; [apply alignment_p2|apply alignment_p2|]. cbn [alignment]. apply maxlist_ge. apply in_map. exact Hx.
    + lia.
    + apply touched_refl.
    + rewrite N.add_0_r in E. rewrite E. cbn [fst]. eexists. split; [reflexivity|]. apply touched_round; auto. apply alignment_p2.
  - change (classify_rec (Tstruct ms) (pp, off)) with
      (if 16 <? add64 off (tysize (Tstruct ms)) then ((PassInMemory, PassInMemory), off)
       else (fst (crec_m ms (pp, off)), align (add64 off (tysize (Tstruct ms))) (tyalign (Tstruct ms)))).
    rewrite C16, FIN, crec_ml. cbn [plain] in PL. apply and_all in PL.
    change (extent (Tstruct ms)) with (roundup (fold_left strext ms 0) (alignment (Tstruct ms))) in *. rewrite fold_strext in *.
    pose proof (roundup_ge (fold_left tupext (map snd ms) 0) _ (alignment_pos (Tstruct ms))).
    destruct (crec_l_marks (alignment (Tstruct ms)) (map snd ms)) with (p0 := pp) (p := pp) (off := off) (r := 0) as (q & E & T); auto.
    + apply Forall_map. rewrite Forall_forall in *. intros x Hx. repeat split; auto.
      apply p2_max_div; [apply alignment_p2|apply alignment_p2|]. cbn [alignment]. apply maxlist_ge.
      apply (in_map (fun m => alignment (snd m))). exact Hx.
    + lia.
    + apply touched_refl.
    + rewrite N.add_0_r in E. rewrite E. cbn [fst]. eexists. split; [reflexivity|]. apply touched_round; auto. apply alignment_p2.
  - cbn [classify_rec plain] in *. rewrite C16, FIN, PL. eexists. split; [reflexivity|].
    assert (extent (Tunion cs) = 4 /\ alignment (Tunion cs) = 4) as [E A].
    { clear - PL. unfold isenum in PL. rewrite forallb_forall in PL.
      assert (alignment (Tunion cs) = 4) as A.
      { cbn [alignment]. assert (maxlist (map (fun c : string * option ty => match snd c with Some e => alignment e | None => 1 end) cs) = 1) as ->; [|reflexivity].
        induction cs as [|[c [e|]] cs IH]; cbn [map maxlist fold_right snd]; auto.
        - specialize (PL _ (or_introl eq_refl)). discriminate.
        - unfold maxlist in IH. rewrite IH; [reflexivity|]. intros x Hx. apply PL. now right. }
      split; auto.
      change (extent (Tunion cs)) with (roundup (fold_left uniext cs 4) (alignment (Tunion cs))). rewrite A.
      assert (fold_left uniext cs 4 = 4) as ->; [|reflexivity].
      clear A. induction cs as [|[c [e|]] cs IH]; cbn [fold_left]; auto.
      - specialize (PL _ (or_introl eq_refl)). discriminate.
      - apply IH. intros x Hx. apply PL. now right. }
    apply (marks_scalar 4); [discriminate|auto|unfold p2; lia|now rewrite <- A|auto].
Qed.

Lemma classify_plain t : plain t -> 0 < extent t -> extent t < W64 -> classify t <> None.
Proof.
  intros PL P W. destruct (isstacktype t) eqn:S.
  - rewrite classify_stack by auto. rewrite tysize_extent by auto. destruct (isaggregate t); cbn [andb]; [|discriminate].
    destruct (N.leb_spec (extent t) 16) as [L|L]; [|discriminate].
    destruct (classify_marks t (NP, NP) 0 PL (N.divide_0_r _) L ltac:(auto)) as ([p0 p1] & -> & T).
    destruct T as (_ & _ & T3 & T4 & _). cbn [fst snd] in *. unfold aggclass.
    specialize (T3 P ltac:(lia)). destruct (N.leb_spec (extent t) 8) as [L8|L8].
    + destruct p0, p1; cbn; congruence.
    + specialize (T4 P ltac:(lia)). destruct p0, p1; cbn; try congruence; destruct T4; congruence.
  - rewrite classify_eq, S. destruct (tybase t) as [[]| | | | | | | | |]; discriminate.
Qed.

(* --- the frame --- *)
(* slots, each (offset below the frame pointer, size), placed one below the other *)
Fixpoint down (lo : N) (l : list (N * N)) (hi : N) : Prop :=
  match l with [] => lo <= hi | (o, n) :: l => lo + n <= o /\ down o l hi end.
Lemma down_app lo l m mid hi : down lo l mid -> down mid m hi -> down lo (l ++ m) hi.
Proof.
  revert lo; induction l as [|[o n] l IH]; intros lo H K; cbn [down app] in *.
  - destruct m as [|[o n] m]; cbn [down] in *; [lia|]. destruct K; split; auto; lia.
  - destruct H; split; auto.
Qed.
Lemma down_in lo l hi o n : down lo l hi -> In (o, n) l -> lo + n <= o /\ o <= hi.
Proof.
  revert lo; induction l as [|[o' n'] l IH]; intros lo H []; destruct H as [A B]; [|apply IH in B; auto; lia].
  injection H0 as -> ->. split; auto. clear - B. revert o B. induction l as [|[a b] l IH]; intros o B; cbn [down] in B; auto.
  destruct B as [B1 B2]. apply IH in B2. lia.
Qed.
Lemma down_le lo l hi : down lo l hi -> lo <= hi.
Proof. revert lo; induction l as [|[a b] l IH]; intros o B; cbn [down] in B; auto. destruct B as [B1 B2]. apply IH in B2. lia. Qed.
Lemma down_order lo l hi i j o n o' n' : down lo l hi -> (i < j)%nat ->
  nth_error l i = Some (o, n) -> nth_error l j = Some (o', n') -> o + n' <= o'.
Proof.
  revert lo i j; induction l as [|[a b] l IH]; intros lo [|i] [|j] C L Hi Hj; cbn [down nth_error] in *; try discriminate; try lia.
  - injection Hi as -> ->. destruct C as [_ C]. apply nth_error_In in Hj. pose proof (down_in _ _ _ _ _ C Hj). lia.
  - destruct C as [_ C]. apply (IH a i j); auto; lia.
Qed.
Lemma down_weak lo lo' l hi : lo' <= lo -> down lo l hi -> down lo' l hi.
Proof. destruct l as [|[o n] l]; cbn [down]; [lia|]. intros H [A B]. split; [lia|exact B]. Qed.

Fixpoint sum (l : list N) : N := match l with [] => 0 | n :: l => n + 8 + sum l end.

Lemma slot_bounds z n m : z + n + 8 < W64 -> m <= 8 -> z + n <= align (add64 z n) m <= z + n + 8.
Proof.
  intros B M. rewrite add64_small by lia. pose proof (align_bounds (z + n) m) as H.
  destruct H as [H1 H2]; [unfold W64; lia|lia|]. lia.
Qed.

Lemma slot_align z t : 0 < extent t -> z + extent t + 8 < W64 ->
  N.divide (alignment t) (align (add64 z (tysize t)) (N.min (tysize t) Ptrsz)).
Proof.
  intros P B. rewrite tysize_extent by lia. rewrite add64_small by lia. unfold Ptrsz.
  pose proof (extent_div t) as D. pose proof (alignment_p2 t) as A.
  pose proof (roundup_lt (z + extent t) 8 ltac:(lia)).
  destruct (N.le_gt_cases 8 (extent t)) as [L|L].
  - rewrite N.min_r by auto. rewrite align_roundup by (unfold p2; lia).
    apply N.divide_trans with 8; [|apply roundup_div]. apply p2_max_div; [auto|unfold p2; lia|apply p2_le; auto].
  - rewrite N.min_l by lia. destruct A as [A|[A|[A|A]]]; rewrite A in *.
    + apply N.divide_1_l.
    + rewrite align_ldiff by (unfold W64 in *; lia). apply N.mod_divide; [discriminate|].
      rewrite <- N.bit0_mod. rewrite N.ldiff_spec.
      assert (N.testbit (extent t - 1) 0 = true) as ->; [|rewrite andb_false_r; reflexivity].
      destruct D as [k D]. assert (extent t = 2 \/ extent t = 4 \/ extent t = 6) as [->|[->| ->]] by lia; reflexivity.
    + assert (extent t = 4) as -> by (destruct D as [k D]; lia).
      pose proof (roundup_lt (z + 4) 4 ltac:(lia)). rewrite align_roundup by (unfold p2; lia). apply roundup_div.
    + destruct D as [k D]; lia.
Qed.

Lemma locals_down ts : forall z l z', z + sum (map extent ts) < W64 -> locals z ts = (l, z') ->
  down z (combine l (map extent ts)) z' /\ z' <= z + sum (map extent ts) /\
  Forall2 (fun t o => 0 < extent t -> N.divide (alignment t) o) ts l.
Proof.
  induction ts as [|t ts IH]; intros z l z' B E; cbn [locals map sum] in *.
  - injection E as <- <-. cbn. repeat split; try lia. constructor.
  - pose proof (slot_bounds z (extent t) (N.min (extent t) Ptrsz) ltac:(lia) ltac:(unfold Ptrsz; lia)) as S.
    assert (tysize t = extent t) as TE by (apply tysize_extent; lia).
    pose proof (slot_align z t) as SA. rewrite TE in SA.
    rewrite TE in E. destruct (locals _ ts) as [r z2] eqn:ER in E. injection E as <- <-.
    apply IH in ER; [|lia]. destruct ER as (D & L & F). cbn [combine down]. repeat split; auto; try lia.
    constructor; auto. intros P. apply SA; lia.
Qed.

Definition small8 (b : bool) : N := if b then 16 else 8.
Lemma smallargs_down bs : forall z l z', z + sum (map small8 bs) < W64 -> smallargs z bs = (l, z') ->
  down z (combine l (map small8 bs)) z' /\ z' <= z + sum (map small8 bs) /\ Forall (N.divide 8) l /\ length l = length bs.
Proof.
  induction bs as [|b bs IH]; intros z l z' B E; cbn [smallargs map sum] in *.
  - injection E as <- <-. cbn. repeat split; try lia. constructor.
  - fold (small8 b) in E. assert (N.min (small8 b) Ptrsz = 8) as M by (destruct b; reflexivity). rewrite M in E.
    pose proof (slot_bounds z (small8 b) 8 ltac:(lia) ltac:(lia)) as S.
    destruct (smallargs _ bs) as [r z2] eqn:ER in E. injection E as <- <-.
    apply IH in ER; [|lia]. destruct ER as (D & L & F & G). cbn [combine down length]. repeat split; auto; try lia.
    constructor; auto. rewrite add64_small by lia.
    pose proof (roundup_lt (z + small8 b) 8 ltac:(lia)). rewrite align_roundup by (unfold p2; lia). apply roundup_div.
Qed.

Lemma spills_down ns : Forall p2 ns -> forall z l z', z + sum ns < W64 -> spills z ns = (l, z') ->
  down z (combine l ns) z' /\ z' <= z + sum ns /\ Forall2 N.divide ns l.
Proof.
  induction 1 as [|n ns P F IH]; intros z l z' B E; cbn [spills map sum] in *.
  - injection E as <- <-. cbn. repeat split; try lia. constructor.
  - pose proof (p2_le _ P) as P8. pose proof (slot_bounds z n n ltac:(lia) P8) as S.
    destruct (spills _ ns) as [r z2] eqn:ER in E. injection E as <- <-.
    apply IH in ER; [|lia]. destruct ER as (D & L & G). cbn [combine down]. repeat split; auto; try lia.
    constructor; auto. rewrite add64_small by lia.
    assert (n <> 0) as Nz by (destruct P as [->|[->|[->| ->]]]; discriminate).
    pose proof (roundup_lt (z + n) n Nz). rewrite align_roundup by (auto; lia). apply roundup_div.
Qed.
