From Verif Require Import Base CUtil_Model.
Ltac Zify.zify_post_hook ::= Z.div_mod_to_equations.

(* --- align --- *)
Lemma land_lnot_ones x p : (x < W64)%N -> (p <= 64)%N ->
  N.land x (N.lnot (N.ones p) 64) = (x / 2 ^ p * 2 ^ p)%N.
Proof.
  intros Hx Hp. rewrite <- N.shiftl_mul_pow2, <- N.shiftr_div_pow2.
  apply N.bits_inj. intros n. rewrite N.land_spec.
  destruct (N.lt_ge_cases n p) as [H|H].
  - rewrite N.shiftl_spec_low by auto. rewrite N.lnot_spec_low by lia. rewrite N.ones_spec_low by auto. apply andb_false_r.
  - rewrite N.shiftl_spec_high' by auto. rewrite N.shiftr_spec by lia. replace (n - p + p)%N with n by lia.
    destruct (N.lt_ge_cases n 64) as [H2|H2].
    + rewrite N.lnot_spec_low by auto. rewrite N.ones_spec_high by auto. apply andb_true_r.
    + rewrite testbit_high by auto. reflexivity.
Qed.

Lemma align_spec sz p : let a := (2 ^ p)%N in (a <= W64 -> sz + a - 1 < W64 ->
  let r := align sz a in
  sz <= r /\ r mod a = 0 /\ forall m, m mod a = 0 -> sz <= m -> r <= m)%N.
Proof.
  cbv zeta. intros Ha Hs. pose proof (N.pow_nonzero 2 p ltac:(lia)) as Hnz.
  assert (Hp : (p <= 64)%N).
  { destruct (N.le_gt_cases p 64) as [|G]; auto. exfalso. rewrite W64_pow in Ha.
    pose proof (N.pow_lt_mono_r 2 64 p ltac:(lia) G). lia. }
  assert (E : align sz (2 ^ p) = ((sz + 2 ^ p - 1) / 2 ^ p * 2 ^ p)%N).
  { unfold align. destruct (N.eqb_spec (2 ^ p) 0); [lia|]. rewrite N.mod_small by auto.
    replace (2 ^ p - 1)%N with (N.ones p) by (unfold N.ones; rewrite N.shiftl_1_l, N.sub_1_r; reflexivity).
    now apply land_lnot_ones. }
  rewrite E. set (a := (2 ^ p)%N) in *. clearbody a. clear E.
  pose proof (N.div_mod (sz + a - 1) a Hnz) as D. pose proof (N.mod_lt (sz + a - 1) a Hnz) as M.
  repeat split.
  - lia.
  - now apply N.mod_mul.
  - intros m Hm Hle. pose proof (N.div_mod m a Hnz) as Dm. rewrite Hm in Dm.
    rewrite N.mul_comm.
    assert (Q : ((sz + a - 1) / a <= m / a)%N).
    { apply N.lt_succ_r. apply N.div_lt_upper_bound; auto. lia. }
    rewrite Dm, N.add_0_r. now apply N.mul_le_mono_l.
Qed.

(* --- lists --- *)
Section L.
Context {A : Type}.
Definition Rep (l : dl A) (xs : list A) : Prop := l = (map Some xs, length xs).

Lemma realloc_grow (xs : list A) : realloc (map Some xs) (length xs + 1) = map Some xs ++ [None].
Proof.
  unfold realloc. rewrite map_length, firstn_all2 by (rewrite map_length; lia).
  replace (length xs + 1 - length xs) with 1 by lia. reflexivity.
Qed.

Lemma upd_at_end (B : Type) (l m : list B) x y : upd (l ++ x :: m) (length l) y = l ++ y :: m.
Proof. induction l as [|h l IH]; cbn; auto. now rewrite IH. Qed.

Lemma lappend_spec l xs x : Rep l xs -> exists l', lappend l x = Some l' /\ Rep l' (xs ++ [x]).
Proof.
  intros ->. unfold lappend. rewrite realloc_grow. unfold store.
  rewrite app_length, map_length. cbn [length]. destruct (Nat.ltb_spec (length xs) (length xs + 1)); [|lia].
  eexists; split; [reflexivity|]. unfold Rep. rewrite map_app, app_length. cbn [map length]. f_equal.
  pose proof (upd_at_end _ (map Some xs) [] None (Some x)) as E. rewrite map_length in E. exact E.
Qed.

Lemma realloc_shrink (xs : list A) n : n <= length xs -> realloc (map Some xs) n = map Some (firstn n xs).
Proof.
  intros H. unfold realloc. rewrite map_length. replace (n - length xs) with 0 by lia.
  cbn [repeat]. rewrite app_nil_r. apply firstn_map.
Qed.

Lemma lpop_spec l xs x : Rep l (xs ++ [x]) -> exists l', lpop l = Some (x, l') /\ Rep l' xs.
Proof.
  intros ->. unfold lpop. rewrite app_length. cbn [length]. replace (length xs + 1) with (S (length xs)) by lia.
  unfold load. rewrite map_app, app_nth2; rewrite map_length; auto. rewrite Nat.sub_diag. cbn [map nth].
  change [Some x] with (map Some [x]). rewrite <- (map_app Some xs [x]). rewrite realloc_shrink by (rewrite app_length; lia).
  eexists; split; [reflexivity|]. unfold Rep. f_equal. f_equal.
  rewrite firstn_app, firstn_all, Nat.sub_diag. cbn. apply app_nil_r.
Qed.

Lemma memmove_ok (b : list (option A)) dst src n : dst + n <= length b -> src + n <= length b ->
  memmove b dst src n = Some (firstn dst b ++ firstn n (skipn src b) ++ skipn (dst + n) b).
Proof.
  intros H1 H2. unfold memmove. destruct (Nat.leb_spec (dst + n) (length b)), (Nat.leb_spec (src + n) (length b)); try lia. reflexivity.
Qed.

Lemma linsert_spec l xs idx x : Rep l xs -> idx <= length xs ->
  exists l', linsert l idx x = Some l' /\ Rep l' (firstn idx xs ++ x :: skipn idx xs).
Proof.
  intros -> Hi. unfold linsert. rewrite realloc_grow.
  destruct (Nat.ltb_spec (length xs) idx); [lia|].
  set (b := map Some xs ++ [None]).
  assert (Lb : length b = length xs + 1) by (unfold b; rewrite app_length, map_length; reflexivity).
  rewrite memmove_ok by lia.
  assert (E1 : firstn (idx + 1) b = map Some (firstn idx xs) ++ firstn 1 (skipn idx b)).
  { rewrite <- firstn_map. replace (firstn idx (map Some xs)) with (firstn idx b).
    - rewrite <- (firstn_skipn idx b) at 1. rewrite firstn_app. rewrite firstn_length, Lb.
      rewrite (firstn_all2 (n := idx + 1)) by (rewrite firstn_length; lia). f_equal. f_equal. lia.
    - unfold b. rewrite firstn_app, map_length. replace (idx - length xs) with 0 by lia. cbn. apply app_nil_r. }
  assert (E2 : firstn (length xs - idx) (skipn idx b) = map Some (skipn idx xs)).
  { unfold b. rewrite skipn_app, map_length. replace (idx - length xs) with 0 by lia. cbn [skipn].
    rewrite firstn_app, skipn_length, map_length, Nat.sub_diag. cbn [firstn]. rewrite app_nil_r.
    rewrite skipn_map. apply firstn_all2. rewrite map_length, skipn_length. lia. }
  assert (E3 : skipn (idx + 1 + (length xs - idx)) b = []) by (apply skipn_all2; lia).
  rewrite E1, E2, E3, app_nil_r.
  assert (E4 : exists c, firstn 1 (skipn idx b) = [c]).
  { assert (0 < length (skipn idx b)) by (rewrite skipn_length; lia).
    destruct (skipn idx b) as [|c r]; cbn in *; [lia|eauto]. }
  destruct E4 as [c ->]. rewrite <- app_assoc. cbn [app].
  unfold store. rewrite app_length, map_length, firstn_length. cbn [length].
  destruct (Nat.ltb_spec idx (Nat.min idx (length xs) + S (length (map Some (skipn idx xs))))); [|lia].
  eexists; split; [reflexivity|]. unfold Rep. f_equal.
  - pose proof (upd_at_end _ (map Some (firstn idx xs)) (map Some (skipn idx xs)) c (Some x)) as E.
    rewrite map_length, firstn_length in E. replace (Nat.min idx (length xs)) with idx in E by lia.
    rewrite E, map_app. reflexivity.
  - rewrite app_length, firstn_length. cbn [length]. rewrite skipn_length. lia.
Qed.

Lemma ldel_spec l xs idx : Rep l xs -> idx < length xs ->
  exists l', ldel l idx = Some l' /\ Rep l' (firstn idx xs ++ skipn (S idx) xs).
Proof.
  intros -> Hi. unfold ldel. destruct (Nat.ltb_spec idx (length xs)); [|lia].
  rewrite memmove_ok by (rewrite map_length; lia).
  eexists; split; [reflexivity|]. unfold Rep.
  assert (E : length xs - 1 = length (firstn idx xs ++ skipn (S idx) xs)).
  { rewrite app_length, firstn_length, skipn_length. lia. }
  rewrite E at 2. f_equal. rewrite skipn_map, skipn_map, !firstn_map, <- !map_app.
  rewrite (firstn_all2 (n := length xs - idx - 1) (skipn (idx + 1) xs)) by (rewrite skipn_length; lia).
  rewrite realloc_shrink by (rewrite !app_length, firstn_length, !skipn_length; lia).
  f_equal. rewrite app_assoc. replace (idx + 1) with (S idx) by lia.
  rewrite firstn_app, <- E, Nat.sub_diag. cbn [firstn]. rewrite app_nil_r. apply firstn_all2. lia.
Qed.

Lemma lcat_spec l xs ys : Rep l xs -> exists l', lcat l ys = Some l' /\ Rep l' (xs ++ ys).
Proof.
  revert l xs; induction ys as [|y ys IH]; intros l xs H; cbn.
  - exists l. split; auto. now rewrite app_nil_r.
  - destruct (lappend_spec l xs y H) as (l1 & E1 & R1). rewrite E1.
    destruct (IH l1 _ R1) as (l2 & E2 & R2). exists l2. split; auto. now rewrite <- app_assoc in R2.
Qed.
End L.

(* --- swapsuffix --- *)
Lemma streqb_eq a b : streqb a b = true <-> a = b.
Proof.
  revert b; induction a as [|x a IH]; intros [|y b]; cbn; split; intros H; try discriminate; auto.
  - apply andb_true_iff in H as [H1 H2]. apply N.eqb_eq in H1. apply IH in H2. congruence.
  - inversion H; subst. apply andb_true_iff. split; [apply N.eqb_refl|]. now apply IH.
Qed.

Lemma swapsuffix_match sz base suf swap : base <> [] -> length base + length suf + length swap < sz ->
  swapsuffix sz (base ++ suf) suf swap = Some (Some (base ++ swap)).
Proof.
  intros Hb Hs. unfold swapsuffix. rewrite app_length.
  destruct (Nat.ltb_spec (length base + length suf) (length suf)); [lia|].
  destruct (Nat.leb_spec sz (length base + length suf + length swap)); [lia|].
  assert (0 < length base) by (destruct base; cbn; [congruence|lia]).
  destruct (Nat.ltb_spec (length suf) (length base + length suf)); [|lia]. cbn [andb].
  unfold strip. rewrite app_length. replace (length base + length suf - length suf) with (length base) by lia.
  rewrite skipn_app, skipn_all, Nat.sub_diag. cbn [app skipn].
  assert (E : streqb suf suf = true) by now apply streqb_eq. rewrite E.
  rewrite firstn_app, firstn_all, Nat.sub_diag. cbn. now rewrite app_nil_r.
Qed.

Lemma swapsuffix_nomatch sz s suf swap : length suf <= length s -> (forall base, base <> [] -> s <> base ++ suf) ->
  length s + length swap < sz -> swapsuffix sz s suf swap = Some (Some (s ++ swap)).
Proof.
  intros Hl Hn Hs. unfold swapsuffix.
  destruct (Nat.ltb_spec (length s) (length suf)); [lia|].
  destruct (Nat.leb_spec sz (length s + length swap)); [lia|].
  destruct (_ && _) eqn:E; auto. exfalso. apply andb_true_iff in E as [E1 E2]. apply Nat.ltb_lt in E1.
  apply streqb_eq in E2. apply (Hn (firstn (length s - length suf) s)).
  - intros E. apply (f_equal (@length N)) in E. rewrite firstn_length in E. cbn in E. lia.
  - rewrite E2 at 2. unfold strip. symmetry. apply firstn_skipn.
Qed.
