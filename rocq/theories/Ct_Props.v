(* C93, C94: the comparisons of lib/crypto/ct.myr, which take the same time for all inputs. *)
From Verif Require Import Base ListX Ct_Model.
From Coq Require Import NArith.
Open Scope N_scope.

Definition bit (b : bool) : N := if b then 1 else 0.
(* the top bit *)
Lemma top_val : forall w a, 0 < w -> a < 2 ^ w -> N.shiftr a (w - 1) = bit (2 ^ (w - 1) <=? a).
Proof.
  intros w a Hw H. rewrite N.shiftr_div_pow2. assert (E : 2 ^ w = 2 * 2 ^ (w - 1)). { rewrite <- N.pow_succ_r'. f_equal. lia. }
  rewrite E in H. assert (P : 0 < 2 ^ (w - 1)) by (apply N.neq_0_lt_0, N.pow_nonzero; discriminate).
  destruct (N.leb_spec (2 ^ (w - 1)) a) as [Q | Q]; cbn [bit].
  - symmetry. apply (N.div_unique a (2 ^ (w - 1)) 1 (a - 2 ^ (w - 1))); lia.
  - apply N.div_small. exact Q.
Qed.
Lemma sub_lt : forall w a b, sub w a b < 2 ^ w.
Proof. intros. apply N.mod_lt, N.pow_nonzero. discriminate. Qed.
Lemma sub_val : forall w a b, a < 2 ^ w -> b < 2 ^ w -> sub w a b = if b <=? a then a - b else 2 ^ w + a - b.
Proof.
  intros w a b Ha Hb. unfold sub. destruct (N.leb_spec b a) as [Q | Q].
  - replace (2 ^ w + a - b) with ((a - b) + 1 * 2 ^ w) by lia. rewrite N.mod_add by (apply N.pow_nonzero; discriminate). apply N.mod_small. lia.
  - apply N.mod_small. lia.
Qed.
Lemma xor_lt : forall w a b, a < 2 ^ w -> b < 2 ^ w -> N.lxor a b < 2 ^ w.
Proof.
  intros w a b Ha Hb. destruct (N.eq_dec (N.lxor a b) 0) as [-> | E]; [ apply N.neq_0_lt_0, N.pow_nonzero; discriminate | ].
  apply N.log2_lt_pow2; [ lia | ]. apply N.le_lt_trans with (1 := N.log2_lxor a b).
  assert (K : forall x, x < 2 ^ w -> 0 < w -> N.log2 x < w).
  { intros x Hx Hw. destruct (N.eq_dec x 0) as [-> | Q]; [ exact Hw | apply N.log2_lt_pow2; lia ]. }
  assert (0 < w). { destruct (N.eq_dec w 0) as [-> | Q]; [ | lia ]. change (2 ^ 0) with 1 in *. assert (a = 0) by lia. assert (b = 0) by lia. subst. contradiction E. reflexivity. }
  apply N.max_lub_lt; apply K; assumption.
Qed.
Lemma pow_split : forall w, 0 < w -> 2 ^ w = 2 ^ (w - 1) + 2 ^ (w - 1).
Proof. intros w H. rewrite <- (N.mul_1_l (2 ^ (w - 1))) at 1 2. rewrite <- N.mul_add_distr_r. change (1 + 1) with 2. rewrite <- N.pow_succ_r'. f_equal. lia. Qed.
Lemma ne_val : forall w a b, 0 < w -> a < 2 ^ w -> b < 2 ^ w -> ne w a b = bit (negb (a =? b)).
Proof.
  intros w a b Hw Ha Hb. unfold ne. pose proof (xor_lt w a b Ha Hb) as Hq.
  assert (E : N.lxor a b = 0 <-> a = b) by apply N.lxor_eq_0_iff. revert Hq E. generalize (N.lxor a b). intros q Hq E.
  rewrite N.shiftr_lor, !top_val by (try assumption; apply sub_lt). unfold neg. pose proof (pow_split w Hw) as P.
  rewrite sub_val by lia. destruct (N.eqb_spec a b) as [Q | Q].
  - apply E in Q. subst q. cbn [N.leb N.compare]. rewrite N.sub_0_r. assert (0 < 2 ^ (w - 1)) by lia.
    destruct (N.leb_spec (2 ^ (w - 1)) 0); [ lia | reflexivity ].
  - assert (q <> 0) by (intros C; apply Q, E, C). destruct (N.leb_spec q 0); [ lia | ].
    destruct (N.leb_spec (2 ^ (w - 1)) q); [ destruct (_ <=? _); reflexivity | ].
    destruct (N.leb_spec (2 ^ (w - 1)) (2 ^ w + 0 - q)); [ reflexivity | lia ].
Qed.
Lemma gt_val : forall w a b, 0 < w -> a < 2 ^ w -> b < 2 ^ w -> gt w a b = bit (b <? a).
Proof.
  intros w a b Hw Ha Hb. unfold gt. rewrite N.shiftr_lxor, N.shiftr_land, !N.shiftr_lxor.
  rewrite !top_val by (try assumption; apply sub_lt). rewrite sub_val by assumption. pose proof (pow_split w Hw) as P.
  destruct (N.ltb_spec b a) as [Q | Q].
  - destruct (N.leb_spec a b) as [Q1 | _]; [ lia | ].
    destruct (N.leb_spec (2 ^ (w - 1)) a), (N.leb_spec (2 ^ (w - 1)) b), (N.leb_spec (2 ^ (w - 1)) (2 ^ w + b - a)); try reflexivity; lia.
  - destruct (N.leb_spec a b) as [_ | Q1]; [ | lia ].
    destruct (N.leb_spec (2 ^ (w - 1)) a), (N.leb_spec (2 ^ (w - 1)) b), (N.leb_spec (2 ^ (w - 1)) (b - a)); try reflexivity; lia.
Qed.
Lemma lt_val : forall w a b, 0 < w -> a < 2 ^ w -> b < 2 ^ w -> (2 ^ (w - 1) <=? a) = (2 ^ (w - 1) <=? b) -> lt w a b = bit (a <? b).
Proof.
  intros w a b Hw Ha Hb S. unfold lt. rewrite N.shiftr_lxor, N.shiftr_land, !N.shiftr_lxor.
  rewrite !top_val by (try assumption; apply sub_lt). rewrite sub_val by assumption. pose proof (pow_split w Hw) as P. rewrite S.
  destruct (N.ltb_spec a b) as [Q | Q].
  - destruct (N.leb_spec b a) as [Q1 | _]; [ lia | ]. revert S.
    destruct (N.leb_spec (2 ^ (w - 1)) a), (N.leb_spec (2 ^ (w - 1)) b), (N.leb_spec (2 ^ (w - 1)) (2 ^ w + a - b)); intros S; try discriminate S; try reflexivity; lia.
  - destruct (N.leb_spec b a) as [_ | Q1]; [ | lia ]. revert S.
    destruct (N.leb_spec (2 ^ (w - 1)) a), (N.leb_spec (2 ^ (w - 1)) b), (N.leb_spec (2 ^ (w - 1)) (a - b)); intros S; try discriminate S; try reflexivity; lia.
Qed.
Lemma neg_ones : forall w, 0 < w -> neg w 1 = N.ones w.
Proof.
  intros w H. unfold neg. pose proof (pow_split w H). assert (0 < 2 ^ (w - 1)) by (apply N.neq_0_lt_0, N.pow_nonzero; discriminate).
  rewrite sub_val by lia. cbn [N.leb N.compare]. rewrite N.ones_equiv. lia.
Qed.
Lemma mux1 : forall w a b, 0 < w -> a < 2 ^ w -> b < 2 ^ w -> mux w 1 a b = a.
Proof.
  intros w a b Hw Ha Hb. unfold mux. rewrite neg_ones by exact Hw. rewrite N.land_comm, N.land_ones, N.mod_small by (apply xor_lt; assumption).
  rewrite (N.lxor_comm a b), <- N.lxor_assoc, N.lxor_nilpotent, N.lxor_0_l. reflexivity.
Qed.
Lemma mux0 : forall w a b, mux w 0 a b = b.
Proof.
  intros w a b. unfold mux, neg, sub. rewrite N.add_0_r, N.sub_0_r, N.mod_same by (apply N.pow_nonzero; discriminate). apply N.lxor_0_r.
Qed.

(* C93: eq, ne, gt, le and mux are the comparisons and the choice they are named after, at every unsigned type *)
Theorem C93_compare : forall w a b, 0 < w -> a < 2 ^ w -> b < 2 ^ w ->
  eq w a b = (if a =? b then 1 else 0) /\ ne w a b = (if a =? b then 0 else 1) /\ gt w a b = (if b <? a then 1 else 0) /\
  le w a b = (if a <=? b then 1 else 0) /\ mux w 1 a b = a /\ mux w 0 a b = b /\ not 0 = 1 /\ not 1 = 0.
Proof.
  intros w a b Hw Ha Hb. pose proof (ne_val w a b Hw Ha Hb) as E1. pose proof (gt_val w a b Hw Ha Hb) as E2.
  split. { unfold eq. change (N.lxor (ne w a b) 1 = if a =? b then 1 else 0). rewrite E1. destruct (a =? b); reflexivity. }
  split. { rewrite E1. destruct (a =? b); reflexivity. }
  split. { rewrite E2. reflexivity. }
  split. { unfold le. rewrite E2, N.leb_antisym. destruct (b <? a); reflexivity. }
  split; [ apply mux1; assumption | ]. split; [ apply mux0 | ]. split; reflexivity.
Qed.
Print Assumptions C93_compare.
(* lt, ge, min and max as long as both values are in the same half of the range *)
Theorem C93_less_partial : forall w a b, 0 < w -> a < 2 ^ w -> b < 2 ^ w -> (2 ^ (w - 1) <= a <-> 2 ^ (w - 1) <= b) ->
  lt w a b = (if a <? b then 1 else 0) /\ ge w a b = (if b <=? a then 1 else 0) /\ min w a b = N.min a b /\ max w a b = N.max a b.
Proof.
  intros w a b Hw Ha Hb S. assert (S' : (2 ^ (w - 1) <=? a) = (2 ^ (w - 1) <=? b)).
  { destruct (N.leb_spec (2 ^ (w - 1)) a), (N.leb_spec (2 ^ (w - 1)) b); try reflexivity; exfalso; lia. }
  pose proof (lt_val w a b Hw Ha Hb S') as E. split; [ exact E | ]. split.
  { unfold ge. rewrite E, N.leb_antisym. destruct (a <? b); reflexivity. }
  unfold min, max. rewrite E. destruct (N.ltb_spec a b) as [Q | Q]; cbn [bit].
  - rewrite !mux1 by assumption. split; lia.
  - rewrite !mux0. split; lia.
Qed.
Print Assumptions C93_less_partial.
(* at every unsigned type there are a < b that lt takes for not less, and min and max exchange *)
Theorem C93_less_refuted : forall w, 0 < w -> exists a b, a < b /\ b < 2 ^ w /\ lt w a b = 0 /\ ge w a b = 1 /\ min w a b = b /\ max w a b = a.
Proof.
  intros w Hw. exists 0, (2 ^ (w - 1)). pose proof (pow_split w Hw) as P.
  assert (0 < 2 ^ (w - 1)) by (apply N.neq_0_lt_0, N.pow_nonzero; discriminate).
  split; [ assumption | ]. split; [ lia | ].
  assert (E : lt w 0 (2 ^ (w - 1)) = 0).
  { unfold lt. rewrite sub_val by lia. destruct (N.leb_spec (2 ^ (w - 1)) 0); [ lia | ]. replace (2 ^ w + 0 - 2 ^ (w - 1)) with (2 ^ (w - 1)) by lia.
    rewrite N.lxor_0_r, N.land_diag, N.lxor_nilpotent. apply N.shiftr_0_l. }
  unfold ge, min, max. rewrite E. rewrite !mux0. repeat split.
Qed.
Print Assumptions C93_less_refuted.
(* all four half-range cases of a 32-bit type, and a pair of ordinary values that are misordered *)
Example C93_met : gt 32 0x80000001 3 = 1 /\ gt 32 3 0x80000001 = 0 /\ eq 8 200 200 = 1 /\ lt 32 23 0xffffffff = 1 /\ lt 32 0x70000000 0x80000000 = 0.
Proof. vm_compute. repeat split. Qed.

(* ---- bufeq ---- *)
Lemma sign63 : forall x y, (0 <= y < 2 ^ 63)%Z -> (- 2 ^ 63 < x < 2 ^ 63)%Z -> Z.shiftr (Z.lxor x y) 63 = if (x <? 0)%Z then (-1)%Z else 0%Z.
Proof.
  intros x y Hy Hx. rewrite Z.shiftr_lxor. rewrite (Z.shiftr_div_pow2 y), (Z.div_small y) by lia. rewrite Z.lxor_0_r. rewrite Z.shiftr_div_pow2 by lia.
  destruct (Z.ltb_spec x 0) as [Q | Q]; [ | apply Z.div_small; lia ].
  symmetry. apply (Z.div_unique x (2 ^ 63) (-1) (x + 2 ^ 63)); lia.
Qed.
Lemma zxor_lt : forall a b, (0 <= a < 2 ^ 63)%Z -> (0 <= b < 2 ^ 63)%Z -> (0 <= Z.lxor a b < 2 ^ 63)%Z.
Proof.
  intros a b Ha Hb. assert (N0 : (0 <= Z.lxor a b)%Z) by (apply Z.lxor_nonneg; lia). split; [ exact N0 | ].
  destruct (Z.eq_dec (Z.lxor a b) 0) as [-> | E]; [ reflexivity | ]. apply Z.log2_lt_pow2; [ lia | ].
  apply Z.le_lt_trans with (1 := Z.log2_lxor a b ltac:(lia) ltac:(lia)).
  assert (K : forall x, (0 <= x < 2 ^ 63)%Z -> (Z.log2 x < 63)%Z).
  { intros x Hx. destruct (Z.eq_dec x 0) as [-> | Q]; [ reflexivity | apply Z.log2_lt_pow2; lia ]. }
  apply Z.max_lub_lt; apply K; assumption.
Qed.
Lemma slt_val : forall a b, (0 <= a < 2 ^ 63)%Z -> (0 <= b < 2 ^ 63)%Z -> slt a b = if (a <? b)%Z then (-1)%Z else 0%Z.
Proof.
  intros a b Ha Hb. unfold slt. rewrite Z.land_diag. rewrite sign63; [ | apply zxor_lt; assumption | lia ].
  destruct (Z.ltb_spec (a - b) 0), (Z.ltb_spec a b); try reflexivity; lia.
Qed.
(* with a < b the minimum is b, perhaps with another last bit *)
Lemma xor1 : forall b, (0 <= b)%Z -> (b - 1 <= Z.lxor b 1)%Z.
Proof. intros b H. destruct b as [ | p | p]; [ cbn; lia | destruct p; cbn; lia | lia ]. Qed.
Lemma smin_ge : forall a b, (0 <= b <= a)%Z -> (a < 2 ^ 63)%Z -> smin a b = b.
Proof.
  intros a b H Ha. unfold smin. rewrite slt_val by lia. destruct (Z.ltb_spec a b) as [Q | Q]; [ lia | ].
  unfold smux. rewrite Z.opp_0, Z.land_0_l, Z.lxor_0_r. reflexivity.
Qed.
Lemma smin_lt : forall a b, (0 <= a < b)%Z -> (b < 2 ^ 63)%Z -> (b - 1 <= smin a b)%Z.
Proof.
  intros a b H Hb. unfold smin. rewrite slt_val by lia. destruct (Z.ltb_spec a b) as [Q | Q]; [ | lia ].
  unfold smux. change (- (-1))%Z with (Z.ones 1). rewrite Z.land_comm, Z.land_ones by lia. change (2 ^ 1)%Z with 2%Z.
  pose proof (Z.mod_pos_bound (Z.lxor a b) 2 ltac:(lia)) as M.
  assert (C : (Z.lxor a b mod 2 = 0 \/ Z.lxor a b mod 2 = 1)%Z) by lia. destruct C as [-> | ->]; [ rewrite Z.lxor_0_r; lia | apply xor1; lia ].
Qed.
Definition is_byte (b : N) : Prop := b < 256.
Lemma eqloop_ok : forall n i a b r, Forall is_byte a -> Forall is_byte b -> (i + n <= length a)%nat -> (i + n <= length b)%nat ->
  (r = 0 \/ r = 1) ->
  exists r', eqloop n i a b r = Some r' /\ (r' = 0 \/ r' = 1) /\ (r' = 1 <-> r = 1 /\ firstn n (skipn i a) = firstn n (skipn i b)).
Proof.
  intros n. induction n as [ | n IH]; intros i a b r Fa Fb La Lb Hr; cbn [eqloop].
  - exists r. repeat split; try assumption; intros H; apply H.
  - destruct (nth_error a i) as [x | ] eqn:Ex. 2: { apply nth_error_None in Ex. lia. }
    destruct (nth_error b i) as [y | ] eqn:Ey. 2: { apply nth_error_None in Ey. lia. }
    assert (Bx : x < 2 ^ 8) by (rewrite Forall_forall in Fa; apply Fa; apply nth_error_In with (1 := Ex)).
    assert (By : y < 2 ^ 8) by (rewrite Forall_forall in Fb; apply Fb; apply nth_error_In with (1 := Ey)).
    assert (Sk : forall (l : list N) v, nth_error l i = Some v -> skipn i l = v :: skipn (S i) l).
    { intros l v. revert l. clear. induction i as [ | i IHi]; intros l E; destruct l; try discriminate E; cbn in *; [ injection E as ->; reflexivity | apply IHi, E ]. }
    rewrite (Sk a x Ex), (Sk b y Ey). cbn [firstn].
    assert (E : mux 8 r (eq 8 x y) r = if x =? y then r else 0).
    { destruct (C93_compare 8 x y ltac:(lia) Bx By) as (Eq & _). rewrite Eq. destruct Hr as [-> | ->].
      - rewrite mux0. destruct (x =? y); reflexivity.
      - rewrite mux1; [ destruct (x =? y); reflexivity | lia | destruct (x =? y); reflexivity | reflexivity ]. }
    rewrite E. destruct (IH (S i) a b (if x =? y then r else 0) Fa Fb) as (r' & E1 & H1 & H2); [ lia | lia | destruct (x =? y); [ exact Hr | left; reflexivity ] | ].
    exists r'. split; [ exact E1 | ]. split; [ exact H1 | ]. rewrite H2. destruct (N.eqb_spec x y) as [Q | Q].
    + subst y. split; intros [A B]; (split; [ exact A | ]); [ rewrite B; reflexivity | injection B as B; exact B ].
    + split; intros [A B]; [ discriminate A | ]. injection B as B1 B2. contradiction.
Qed.
Lemma eqloop_abort : forall n i a b r, (length a < i + n)%nat -> (i <= length a)%nat -> eqloop n i a b r = None.
Proof.
  intros n. induction n as [ | n IH]; intros i a b r L Li; cbn [eqloop]; [ lia | ].
  destruct (nth_error a i) as [x | ] eqn:Ex; [ | reflexivity ]. destruct (nth_error b i); [ | reflexivity ].
  assert (i < length a)%nat by (apply nth_error_Some; rewrite Ex; discriminate). apply IH; lia.
Qed.
(* when the first buffer is not the shorter one, bufeq tells whether it starts with the second *)
Lemma bufeq_prefix : forall a b, Forall is_byte a -> Forall is_byte b -> (length b <= length a)%nat -> (Z.of_nat (length a) < 2 ^ 63)%Z ->
  exists r, bufeq a b = Some r /\ (r = true <-> firstn (length b) a = b).
Proof.
  intros a b Fa Fb L Hl. unfold bufeq. rewrite smin_ge by lia. rewrite Nat2Z.id.
  destruct (eqloop_ok (length b) 0 a b 1 Fa Fb) as (r & E & H1 & H2); [ lia | lia | right; reflexivity | ].
  rewrite E. cbn [option_map skipn] in *. exists (negb (r =? 0)). split; [ reflexivity | ]. rewrite firstn_all in H2.
  destruct H1 as [-> | ->]; cbn [N.eqb Pos.eqb negb].
  - split; [ discriminate | ]. intros A. destruct H2 as [_ H2]. discriminate H2. split; [ reflexivity | exact A ].
  - split; [ intros _; apply H2; reflexivity | reflexivity ].
Qed.

(* C94: bufeq tells whether two buffers of the same length are equal *)
Theorem C94_bufeq_partial : forall a b, Forall is_byte a -> Forall is_byte b -> length a = length b -> (Z.of_nat (length a) < 2 ^ 63)%Z ->
  exists r, bufeq a b = Some r /\ (r = true <-> a = b).
Proof.
  intros a b Fa Fb L Hl. destruct (bufeq_prefix a b Fa Fb) as (r & E & H); [ lia | exact Hl | ]. exists r. split; [ exact E | ].
  rewrite H, <- L, firstn_all. reflexivity.
Qed.
Print Assumptions C94_bufeq_partial.
(* bytes after the end of the second buffer are not looked at *)
Theorem C94_prefix_refuted : forall b c, Forall is_byte b -> Forall is_byte c -> (Z.of_nat (length (b ++ c)) < 2 ^ 63)%Z -> bufeq (b ++ c) b = Some true.
Proof.
  intros b c Fb Fc Hl. destruct (bufeq_prefix (b ++ c) b) as (r & E & H); [ apply Forall_app; split; assumption | assumption | rewrite app_length; lia | exact Hl | ].
  rewrite E. f_equal. apply H. apply firstn_app_exact.
Qed.
Print Assumptions C94_prefix_refuted.
(* a first buffer shorter by two or more is read past its end *)
Theorem C94_abort_refuted : forall a b, (length a + 2 <= length b)%nat -> (Z.of_nat (length b) < 2 ^ 63)%Z -> bufeq a b = None.
Proof.
  intros a b L Hl. unfold bufeq. pose proof (smin_lt (Z.of_nat (length a)) (Z.of_nat (length b)) ltac:(lia) ltac:(lia)) as M.
  rewrite eqloop_abort by lia. reflexivity.
Qed.
Print Assumptions C94_abort_refuted.
Example C94_met : bufeq [1; 2; 3] [1; 2; 3] = Some true /\ bufeq [1; 2; 3] [1; 7; 3] = Some false /\ bufeq [1; 2; 3] [1; 2] = Some true /\
  bufeq [1; 2] [1; 2; 3; 4] = None /\ bufeq [1; 2] [1; 2; 3] = Some true.
Proof. vm_compute. repeat split. Qed.
