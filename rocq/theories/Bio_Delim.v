(* Delimited reads and integers from a calm file. *)
From Verif Require Import Base ListX Utf_Model Utf_Spec Utf_Proofs Bio_Model Bio_Spec Bio_Proofs Bio_Read Bio_Line.
From Coq Require Import NArith Lia List.
Import ListNotations.
Open Scope nat_scope.

Definition occb (d s : list N) : Prop := firstn (length d) s = d.
Lemma occurs_iff d s i : occurs_at d s i <-> occb d (skipn i s).
Proof.
  unfold occurs_at, occb. split.
  - intros (b & ->). apply firstn_app_exact.
  - intros H. exists (skipn (length d) (skipn i s)). rewrite <- H at 1. symmetry. apply firstn_skipn.
Qed.
Lemma occb_app d s t : length d <= length s -> occb d (s ++ t) <-> occb d s.
Proof. intros L. unfold occb. rewrite firstn_app. replace (length d - length s) with 0 by lia. cbn. rewrite app_nil_r. reflexivity. Qed.
Lemma occb_len d s : occb d s -> length d <= length s.
Proof. unfold occb. intros H. apply (f_equal (@length N)) in H. rewrite firstn_length in H. lia. Qed.

Lemma delimhere_spec b d : forall i, i + length d <= length b -> delimhere b i d = true <-> occb d (skipn i b).
Proof.
  induction d as [|c d IH]; intros i L; [cbn; split; reflexivity|]. cbn [length] in L. cbn [delimhere].
  assert (E : skipn i b = nth i b 0%N :: skipn (S i) b).
  { replace (skipn (S i) b) with (skipn 1 (skipn i b)) by (rewrite ListX.skipn_skipn; f_equal; lia).
    replace (nth i b 0%N) with (nth 0 (skipn i b) 0%N); [apply list_hd; rewrite skipn_length; lia|].
    apply nth_error_nth. rewrite ListX.nth_error_skipn, Nat.add_0_r. apply nth_error_nth_lt. lia. }
  rewrite E. unfold occb. cbn [length firstn]. rewrite andb_true_iff, N.eqb_eq, (IH (S i)) by lia. unfold occb. split.
  - intros [-> ->]. reflexivity.
  - intros H. injection H as H1 H2. auto.
Qed.
Lemma delimscan_spec b d : forall n i, d <> [] -> i + n + length d <= S (length b) ->
  match delimscan b i n d with
  | (j, true) => exists k, j = i + k /\ k < n /\ occb d (skipn j b) /\ forall k', k' < k -> ~ occb d (skipn (i + k') b)
  | (j, false) => j = i + n /\ forall k', k' < n -> ~ occb d (skipn (i + k') b)
  end.
Proof.
  induction n as [|n IH]; intros i ND L; cbn [delimscan].
  { split; [lia|]. intros; lia. }
  pose proof (delimhere_spec b d i ltac:(lia)) as D. destruct (delimhere b i d) eqn:E.
  - exists 0. split; [lia|]. split; [lia|]. split; [apply D; reflexivity|]. intros; lia.
  - assert (N0 : ~ occb d (skipn i b)) by (intros X; apply D in X; discriminate).
    specialize (IH (S i) ND ltac:(lia)). destruct (delimscan b (S i) n d) as [j [|]].
    + destruct IH as (k & J & K & O & NO). exists (S k). split; [lia|]. split; [lia|]. split; [exact O|].
      intros [|k'] K'; [rewrite Nat.add_0_r; exact N0|]. replace (i + S k') with (S i + k') by lia. apply NO. lia.
    + destruct IH as (J & NO). split; [lia|]. intros [|k'] K'; [rewrite Nat.add_0_r; exact N0|]. replace (i + S k') with (S i + k') by lia. apply NO. lia.
Qed.
(* occurrences in the buffer are occurrences in the stream *)
Lemma occb_held f d k : wf f -> k + length d <= length (held f) ->
  (occb d (skipn (rstart f + k) (rbuf f)) <-> occurs_at d (stream f) k).
Proof.
  intros W L. rewrite occurs_iff. unfold stream. rewrite skipn_app. replace (k - length (held f)) with 0 by lia. cbn [skipn].
  rewrite occb_app by (rewrite skipn_length; lia). pose proof (held_length f W) as HL. unfold held, slice.
  rewrite skipn_firstn_comm, ListX.skipn_skipn. unfold occb. rewrite firstn_firstn. rewrite Nat.min_l by lia. reflexivity.
Qed.
Lemma first_unique d a s i : first_at d a s -> occurs_at d (a ++ d ++ s) i -> length a <= i.
Proof. intros F O. destruct (Nat.le_gt_cases (length a) i); [assumption|]. exfalso. exact (F i H O). Qed.
Lemma occurs_here d a s : occurs_at d (a ++ d ++ s) (length a).
Proof. exists s. rewrite skipn_app_exact. reflexivity. Qed.
Lemma first_drop d h a s : first_at d (h ++ a) s -> first_at d a s.
Proof.
  intros F i I O. apply (F (length h + i)); [rewrite app_length; lia|]. rewrite occurs_iff in *. rewrite <- app_assoc.
  rewrite skipn_app_exact'. exact O.
Qed.
Lemma absent_drop d h a : absent d (h ++ a) -> absent d a.
Proof. intros F i O. apply (F (length h + i)). rewrite occurs_iff in *. rewrite skipn_app_exact'. exact O. Qed.

(* what is returned, and how far the stream moves, when the delimiter comes after a *)
Definition got (mode : skipmode) (a d : list N) : list N := match mode with Drop => [] | Read => a | Keep => a ++ d end.
Definition gotpart (mode : skipmode) (a : list N) : list N := match mode with Drop => [] | _ => a end.
Lemma got_app mode a b d : got mode (a ++ b) d = gotpart mode a ++ got mode b d.
Proof. destruct mode; cbn; auto. apply eq_sym, app_assoc. Qed.

Lemma readdelim_loop_spec fuel mode d : forall f ret a s, wf f -> d <> [] -> length d < length (rbuf f) -> calm f ->
  stream f = a ++ d ++ s -> first_at d a s -> length (stream f) < fuel ->
  exists f', readdelim_loop fuel f d mode ret = Done (f', Ok (ret ++ got mode a d)) /\ calm f' /\ adv f (a ++ d) f'.
Proof.
  induction fuel as [|fuel IH]; intros f ret a s W ND L C ST FA F; [lia|]. cbn [readdelim_loop].
  destruct (ensureread_spec f (length d) W ltac:(lia)) as (g & r & E & K & RO & Q). rewrite E. destruct (Q C) as (CG & D).
  destruct D as [[_ [k0 ->]]|(X & _)]; [|rewrite ST, !app_length in X; lia].
  specialize (RO k0 eq_refl). assert (Wg : wf g) by apply K. pose proof (held_length g Wg) as HL.
  assert (Lg : length (rbuf g) = length (rbuf f)) by apply K. assert (SG : stream g = a ++ d ++ s) by (rewrite <- ST; apply K).
  assert (DP : 1 <= length d) by (destruct d; [congruence|cbn; lia]). pose proof Wg as [WB1 WB2].
  set (n := S (rend g - rstart g) - length d).
  pose proof (delimscan_spec (rbuf g) d n (rstart g) ND ltac:(unfold n; lia)) as SC.
  destruct (delimscan (rbuf g) (rstart g) n d) as [j [|]].
  - destruct SC as (k & J & KN & O & NO). subst j. apply (occb_held g d k Wg) in O; [|unfold n in KN; lia].
    assert (EK : k = length a).
    { rewrite SG in O. pose proof (first_unique d a s k FA O) as U. destruct (Nat.eq_dec k (length a)) as [|NE]; [assumption|exfalso].
      apply (NO (length a)); [lia|]. apply (occb_held g d (length a) Wg); [unfold n in KN; lia|]. rewrite SG. apply occurs_here. }
    subst k. assert (LH : length a + length d <= length (held g)) by (unfold n in KN; lia).
    assert (PA : exists h, held g = (a ++ d) ++ h).
    { apply (app_prefix (a ++ d) s (held g) (rest (dv g))); [rewrite <- app_assoc; rewrite <- SG; reflexivity|rewrite app_length; lia]. }
    destruct PA as (h & PA).
    assert (F1 : firstn (length a) (held g) = a) by (rewrite PA, <- app_assoc; apply firstn_app_exact).
    assert (F2 : firstn (length a + length d) (held g) = a ++ d) by (rewrite PA, <- app_length; apply firstn_app_exact).
    pose proof (adv_setstart g (length a + length d) Wg ltac:(lia)) as A. rewrite F2 in A.
    assert (AF : adv f (a ++ d) (setstart g (rstart g + (length a + length d)))) by (eapply kept_adv_trans; [exact K|exact A]).
    destruct mode; cbn [got].
    + eexists. split; [rewrite app_nil_r; reflexivity|]. split; [exact CG|]. replace (rstart g + length a + length d) with (rstart g + (length a + length d)) by lia. exact AF.
    + replace (rstart g + length a - rstart g) with (length a) by lia. rewrite readinto_spec by (exact Wg || lia). rewrite F1.
      eexists. split; [reflexivity|]. split; [exact CG|]. cbn [rstart setstart setr]. unfold setstart at 1. cbn [rbuf rend].
      replace (rstart g + length a + length d) with (rstart g + (length a + length d)) by lia. exact AF.
    + replace (rstart g + length a + length d - rstart g) with (length a + length d) by lia. rewrite readinto_spec by (exact Wg || lia). rewrite F2.
      eexists. split; [reflexivity|]. split; [exact CG|exact AF].
  - destruct SC as (J & NO). subst j. replace (rstart g + n - rstart g) with n by lia.
    assert (NA : n <= length a).
    { destruct (Nat.le_gt_cases n (length a)); [assumption|exfalso]. apply (NO (length a)); [lia|].
      apply (occb_held g d (length a) Wg); [unfold n in *; lia|]. rewrite SG. apply occurs_here. }
    assert (NH : n <= length (held g)) by (unfold n; lia).
    assert (FH : firstn n (held g) = firstn n a).
    { rewrite <- (firstn_stream g n NH), SG. rewrite firstn_app. replace (n - length a) with 0 by lia. cbn. apply app_nil_r. }
    pose proof (adv_setstart g n Wg NH) as A. set (g1 := setstart g (rstart g + n)) in *. rewrite FH in A.
    assert (AF : adv f (firstn n a) g1) by (eapply kept_adv_trans; [exact K|exact A]).
    assert (EA : a = firstn n a ++ skipn n a) by (symmetry; apply firstn_skipn).
    assert (S1 : stream g1 = skipn n a ++ d ++ s).
    { destruct A as (_ & X & _). rewrite SG, EA, <- app_assoc in X. rewrite firstn_app, firstn_firstn, Nat.min_id in X.
      rewrite firstn_length in X. replace (n - Nat.min n (length a)) with 0 in X by lia. cbn [firstn] in X. rewrite app_nil_r in X.
      apply app_inv_head in X. congruence. }
    pose proof (adv_len _ _ _ AF) as AL. rewrite firstn_length in AL.
    rewrite EA in FA. apply first_drop in FA.
    destruct (IH g1 (ret ++ gotpart mode (firstn n a)) (skipn n a) s) as (f' & EF & CF & AF'); auto.
    { apply A. }
    { destruct A as (_ & _ & _ & _ & _ & _ & Y & _). lia. }
    { unfold n in *. lia. }
    exists f'. split; [|split; [exact CF|]].
    + destruct mode; cbn [got gotpart] in *; [|rewrite readinto_spec by (exact Wg || lia); rewrite FH; fold g1..].
      * fold g1. rewrite EF, app_nil_r. reflexivity.
      * rewrite EF. rewrite <- app_assoc, <- EA. reflexivity.
      * rewrite EF. rewrite <- app_assoc. do 3 f_equal. rewrite (app_assoc (firstn n a)), <- EA. reflexivity.
    + pose proof (adv_trans _ _ _ _ _ AF AF') as AA. rewrite app_assoc, <- EA in AA. exact AA.
Qed.
Lemma readdelim_loop_last fuel mode d : forall f ret, wf f -> d <> [] -> length d < length (rbuf f) -> calm f ->
  absent d (stream f) -> length (stream f) < fuel ->
  exists f', readdelim_loop fuel f d mode ret = Done (f', match ret ++ gotpart mode (stream f) with [] => Err Eof | l => Ok l end) /\
    calm f' /\ adv f (stream f) f'.
Proof.
  induction fuel as [|fuel IH]; intros f ret W ND L C AB F; [lia|]. cbn [readdelim_loop].
  destruct (ensureread_spec f (length d) W ltac:(lia)) as (g & r & E & K & RO & Q). rewrite E. destruct (Q C) as (CG & D).
  assert (Wg : wf g) by apply K. pose proof (held_length g Wg) as HL.
  assert (Lg : length (rbuf g) = length (rbuf f)) by apply K. assert (SG : stream g = stream f) by apply K.
  assert (DP : 1 <= length d) by (destruct d; [congruence|cbn; lia]). pose proof Wg as [WB1 WB2].
  destruct D as [[_ [k0 ->]]|(X & -> & R)].
  - specialize (RO k0 eq_refl). set (n := S (rend g - rstart g) - length d).
    pose proof (delimscan_spec (rbuf g) d n (rstart g) ND ltac:(unfold n; lia)) as SC.
    destruct (delimscan (rbuf g) (rstart g) n d) as [j [|]].
    + exfalso. destruct SC as (k & J & KN & O & _). subst j. apply (occb_held g d k Wg) in O; [|unfold n in KN; lia]. rewrite SG in O. exact (AB k O).
    + destruct SC as (J & NO). subst j. replace (rstart g + n - rstart g) with n by lia.
      assert (NH : n <= length (held g)) by (unfold n; lia).
      pose proof (adv_setstart g n Wg NH) as A. set (g1 := setstart g (rstart g + n)) in *.
      assert (AF : adv f (firstn n (held g)) g1) by (eapply kept_adv_trans; [exact K|exact A]).
      assert (SF : stream f = firstn n (held g) ++ stream g1) by apply AF.
      pose proof (adv_len _ _ _ AF) as AL. rewrite firstn_length in AL. rewrite SF in AB. apply absent_drop in AB.
      destruct (IH g1 (ret ++ gotpart mode (firstn n (held g)))) as (f' & EF & CF & AF'); auto.
      { apply A. }
      { destruct A as (_ & _ & _ & _ & _ & _ & Y & _). lia. }
      { unfold n in *. lia. }
      exists f'. split; [|split; [exact CF|]].
      * rewrite SF. destruct mode; cbn [gotpart] in *; [|rewrite readinto_spec by (exact Wg || lia); fold g1..].
        -- fold g1. rewrite EF, !app_nil_r. reflexivity.
        -- rewrite EF, <- app_assoc. reflexivity.
        -- rewrite EF, <- app_assoc. reflexivity.
      * rewrite SF. eapply adv_trans; [exact AF|exact AF'].
  - assert (SF : stream f = held g) by (rewrite <- SG; apply held_nil_stream; exact R).
    pose proof (adv_setstart g (rend g - rstart g) Wg ltac:(lia)) as A. rewrite (firstn_all2 (held g)) in A by lia.
    assert (AF : adv f (held g) (setstart g (rstart g + (rend g - rstart g)))) by (eapply kept_adv_trans; [exact K|exact A]).
    rewrite SF. exists (setstart g (rstart g + (rend g - rstart g))). split; [|split; [exact CG|exact AF]].
    destruct mode; cbn [gotpart]; [reflexivity|rewrite readinto_spec by (exact Wg || lia); rewrite (firstn_all2 (held g)) by lia; reflexivity..].
Qed.

(* --- integers --- *)
Open Scope N_scope.
Lemma le_value_bound bs : Forall (fun b => b < 256) bs -> le_value bs < 256 ^ N.of_nat (length bs).
Proof.
  induction 1 as [|b bs B F IH]; [cbn; lia|]. cbn [le_value length]. rewrite Nat2N.inj_succ, N.pow_succ_r'. lia.
Qed.
Lemma pow256 n : 256 ^ N.of_nat n = 2 ^ (8 * N.of_nat n).
Proof. rewrite N.pow_mul_r. reflexivity. Qed.
Lemma lor_high v x k : v < 2 ^ k -> N.lor v (N.shiftl x k) = v + x * 2 ^ k.
Proof.
  intros V. rewrite <- N.shiftl_mul_pow2. symmetry. rewrite <- N.lxor_lor; [apply N.add_nocarry_lxor|]; apply N.bits_inj_iff; intros i;
    rewrite N.land_spec, N.bits_0; destruct (N.lt_ge_cases i k) as [L|L].
  - rewrite N.shiftl_spec_low by exact L. apply andb_false_r.
  - rewrite (proj2 (N.testbit_false v i)); [reflexivity|]. rewrite N.div_small; [reflexivity|]. eapply N.lt_le_trans; [exact V|]. apply N.pow_le_mono_r; lia.
  - rewrite N.shiftl_spec_low by exact L. apply andb_false_r.
  - rewrite (proj2 (N.testbit_false v i)); [reflexivity|]. rewrite N.div_small; [reflexivity|]. eapply N.lt_le_trans; [exact V|]. apply N.pow_le_mono_r; lia.
Qed.
Lemma slice_cons b s n : (s + S n <= length b)%nat -> slice b s (s + S n) = nth s b 0 :: slice b (S s) (S s + n).
Proof.
  intros L. rewrite (slice_app b s (S s)) by lia. replace (s + S n)%nat with (S s + n)%nat by lia.
  change (nth s b 0 :: slice b (S s) (S s + n)) with ([nth s b 0] ++ slice b (S s) (S s + n)). f_equal.
  unfold slice. replace (S s - s)%nat with 1%nat by lia.
  replace (nth s b 0) with (nth 0 (skipn s b) 0).
  - destruct (skipn s b) eqn:X; [|reflexivity]. apply (f_equal (@length N)) in X. rewrite skipn_length in X. cbn in X. lia.
  - apply nth_error_nth. rewrite ListX.nth_error_skipn, Nat.add_0_r. apply nth_error_nth_lt. lia.
Qed.
Lemma getle_loop_spec b : forall n s i v, (s + n <= length b)%nat -> (i + n <= 8)%nat -> v < 256 ^ N.of_nat i ->
  Forall (fun b => b < 256) (slice b s (s + n)) ->
  getle_loop b s i n v = v + 256 ^ N.of_nat i * le_value (slice b s (s + n)).
Proof.
  induction n as [|n IH]; intros s i v L I V F.
  - cbn [getle_loop]. rewrite Nat.add_0_r, slice_empty. cbn. lia.
  - rewrite slice_cons in * by exact L. inversion F as [|? ? B F']; subst. cbn [getle_loop le_value].
    assert (V1 : N.lor v (N.shiftl (nth s b 0) (8 * N.of_nat i)) = v + nth s b 0 * 256 ^ N.of_nat i).
    { rewrite pow256 in *. apply lor_high. exact V. }
    rewrite V1. assert (P : 256 ^ N.of_nat (S i) = 256 * 256 ^ N.of_nat i) by (rewrite Nat2N.inj_succ; apply N.pow_succ_r').
    assert (V2 : v + nth s b 0 * 256 ^ N.of_nat i < 256 ^ N.of_nat (S i)) by (rewrite P; nia).
    rewrite N.land_ones, N.mod_small.
    + rewrite IH; [|lia|lia|exact V2|exact F']. rewrite P. lia.
    + eapply N.lt_le_trans; [exact V2|]. rewrite pow256. apply N.pow_le_mono_r; lia.
Qed.
Lemma le_value_app a b : le_value (a ++ b) = le_value a + 256 ^ N.of_nat (length a) * le_value b.
Proof.
  induction a as [|x a IH]; [cbn [app le_value length]; change (256 ^ N.of_nat 0) with 1; lia|]. cbn [app le_value length].
  rewrite IH, Nat2N.inj_succ, N.pow_succ_r'. lia.
Qed.
Lemma getbe_loop_spec b : forall n s j v, (s + n <= length b)%nat -> (j + n <= 8)%nat -> v < 256 ^ N.of_nat j ->
  Forall (fun b => b < 256) (slice b s (s + n)) ->
  getbe_loop b s n v = v * 256 ^ N.of_nat n + be_value (slice b s (s + n)).
Proof.
  induction n as [|n IH]; intros s j v L J V F.
  - cbn [getbe_loop]. rewrite Nat.add_0_r, slice_empty. change (256 ^ N.of_nat 0) with 1. cbn. lia.
  - rewrite slice_cons in * by exact L. inversion F as [|? ? B F']; subst. cbn [getbe_loop].
    assert (P : forall i, 256 ^ N.of_nat (S i) = 256 * 256 ^ N.of_nat i) by (intros; rewrite Nat2N.inj_succ; apply N.pow_succ_r').
    assert (V0 : v * 2 ^ 8 < 2 ^ 64).
    { change (2 ^ 64) with (256 ^ N.of_nat 8). eapply N.lt_le_trans with (256 ^ N.of_nat (S j)); [rewrite P; change (2 ^ 8) with 256; lia|].
      apply N.pow_le_mono_r; lia. }
    rewrite N.land_ones, N.shiftl_mul_pow2, N.mod_small by exact V0. rewrite <- N.shiftl_mul_pow2, N.lor_comm, lor_high by (exact B).
    change (2 ^ 8) with 256. rewrite (IH (S s) (S j)); [|lia|lia|rewrite P; lia|exact F'].
    unfold be_value. cbn [rev]. rewrite le_value_app. cbn [le_value]. rewrite rev_length, slice_length by lia.
    replace (S s + n - S s)%nat with n by lia. rewrite P. lia.
Qed.
