From Verif Require Import Base SBitset_Model SBitset_Spec.
Open Scope N_scope.
Ltac Zify.zify_post_hook ::= Z.div_mod_to_equations.

Definition wf (b : bits) : Prop := Forall (fun c => c < W64) b.

Lemma get_oob b i : blen b <= i -> get b i = 0.
Proof. intros H; unfold get, blen in *. apply nth_overflow. lia. Qed.
Lemma get_lt b i : wf b -> get b i < W64.
Proof.
  intros H; unfold get. destruct (Nat.lt_ge_cases (N.to_nat i) (length b)) as [Hl|Hl].
  - unfold wf in H; rewrite Forall_forall in H. apply H, nth_In; auto.
  - rewrite nth_overflow by auto. reflexivity.
Qed.

Lemma land_bit_nz c k : negb (N.land c (N.shiftl 1 k) =? 0) = N.testbit c k.
Proof.
  assert (E : N.land c (N.shiftl 1 k) = if N.testbit c k then N.shiftl 1 k else 0).
  { apply N.bits_inj; intros j. rewrite N.land_spec. destruct (N.eq_dec j k) as [->|Hne].
    - destruct (N.testbit c k); [reflexivity|now rewrite N.bits_0].
    - assert (Hj : N.testbit (N.shiftl 1 k) j = false) by (rewrite N.shiftl_1_l; apply N.pow2_bits_false; auto).
      rewrite Hj, andb_false_r. destruct (N.testbit c k); rewrite ?N.bits_0; auto. }
  rewrite E. destruct (N.testbit c k); reflexivity.
Qed.

Lemma has_bit b e : bshas b e = N.testbit (get b (e / 64)) (e mod 64).
Proof.
  unfold bshas. change (8 * 8) with 64. destruct (N.leb_spec (blen b) (e / 64)) as [H|H].
  - rewrite get_oob by auto. now rewrite N.bits_0.
  - apply land_bit_nz.
Qed.

Lemma get_ensure b n i : get (ensurelen b n) i = get b i.
Proof.
  unfold get, ensurelen. destruct (length b <=? n)%nat; auto.
  destruct (Nat.lt_ge_cases (N.to_nat i) (length b)) as [Hl|Hl].
  - now rewrite app_nth1.
  - rewrite app_nth2 by auto. rewrite nth_repeat_d. now rewrite nth_overflow.
Qed.
Lemma ensure_wf b n : wf b -> wf (ensurelen b n).
Proof.
  intros H. unfold ensurelen. destruct (length b <=? n)%nat; auto. apply Forall_app; split; auto.
  apply Forall_forall; intros x Hx. apply repeat_spec in Hx; subst; reflexivity.
Qed.
Lemma ensure_len b n : (n < length (ensurelen b n))%nat /\ ((length b <= n)%nat -> length (ensurelen b n) = S n).
Proof. unfold ensurelen. destruct (Nat.leb_spec (length b) n); rewrite ?app_length, ?repeat_length; lia. Qed.
Lemma has_ensure b n e : bshas (ensurelen b n) e = bshas b e.
Proof. now rewrite !has_bit, get_ensure. Qed.
Lemma get_upd b i j c : get (upd b (N.to_nat i) c) j = if (i =? j) && (i <? blen b) then c else get b j.
Proof.
  unfold get, blen. rewrite nth_upd.
  destruct (Nat.eqb_spec (N.to_nat i) (N.to_nat j)), (N.eqb_spec i j); try lia; cbn; auto.
  destruct (Nat.ltb_spec (N.to_nat i) (length b)), (N.ltb_spec i (N.of_nat (length b))); try lia; auto.
Qed.

Lemma lor_lt x y : x < W64 -> y < W64 -> N.lor x y < W64.
Proof. intros Hx Hy. apply lt_W64_testbit; intros k Hk. rewrite N.lor_spec, !testbit_high; auto. Qed.
Lemma land_lt x y : x < W64 -> N.land x y < W64.
Proof. intros Hx. apply lt_W64_testbit; intros k Hk. rewrite N.land_spec, (testbit_high x); auto. Qed.
Lemma pow2_lt k : k < 64 -> N.shiftl 1 k < W64.
Proof. intros H. rewrite N.shiftl_1_l, W64_pow. apply N.pow_lt_mono_r; lia. Qed.

Lemma put_spec b e : wf b -> wf (fst (bsput b e)) /\ (forall x, bshas (fst (bsput b e)) x = bshas b x || (x =? e)) /\
  snd (bsput b e) = negb (bshas b e).
Proof.
  intros Hb. unfold bsput. change (8 * 8) with 64. set (i := e / 64) in *. set (o := e mod 64) in *.
  pose proof (ensure_len b (N.to_nat i)) as [HL _]. pose proof (ensure_wf b (N.to_nat i) Hb) as Hw.
  cbn [fst snd]. split; [|split].
  - apply Forall_upd; auto. apply lor_lt; [now apply get_lt|apply pow2_lt; lia].
  - intros x. rewrite !has_bit, get_upd. rewrite get_ensure.
    assert (Hi : i <? blen (ensurelen b (N.to_nat i)) = true) by (unfold blen; lia). rewrite Hi, andb_true_r.
    destruct (N.eqb_spec i (x / 64)) as [E|E].
    + rewrite <- E, N.lor_spec, N.shiftl_1_l, N.pow2_bits_eqb.
      destruct (N.eqb_spec o (x mod 64)), (N.eqb_spec x e); try lia; auto.
    + rewrite get_ensure. destruct (N.eqb_spec x e) as [->|]; [lia|now rewrite orb_false_r].
  - rewrite get_ensure, has_bit. fold i o. rewrite <- land_bit_nz. now rewrite negb_involutive.
Qed.

Lemma del_spec b e : wf b -> wf (fst (bsdel b e)) /\ (forall x, bshas (fst (bsdel b e)) x = bshas b x && negb (x =? e)) /\
  snd (bsdel b e) = bshas b e.
Proof.
  intros Hb. unfold bsdel. change (8 * 8) with 64. set (i := e / 64) in *. set (o := e mod 64) in *.
  destruct (N.ltb_spec i (blen b)) as [Hlt|Hge]; cbn [fst snd].
  - split; [|split].
    + apply Forall_upd; auto. apply land_lt. now apply get_lt.
    + intros x. rewrite !has_bit, get_upd. assert (Hi : i <? blen b = true) by lia. rewrite Hi, andb_true_r.
      destruct (N.eqb_spec i (x / 64)) as [E|E].
      * rewrite <- E, N.land_spec. rewrite N.lnot_spec_low by lia. rewrite N.shiftl_1_l, N.pow2_bits_eqb.
        destruct (N.eqb_spec o (x mod 64)), (N.eqb_spec x e); try lia; auto.
      * destruct (N.eqb_spec x e) as [->|]; [lia|now rewrite andb_true_r].
    + rewrite has_bit. apply land_bit_nz.
  - split; auto. split.
    + intros x. destruct (N.eqb_spec x e) as [->|]; [|now rewrite andb_true_r].
      rewrite has_bit, get_oob by auto. now rewrite N.bits_0.
    + rewrite has_bit, get_oob by auto. now rewrite N.bits_0.
Qed.

Lemma zipn_nth f : forall n a b i, (n <= length a)%nat -> (n <= length b)%nat ->
  nth i (zipn f n a b) 0 = if (i <? n)%nat then f (nth i a 0) (nth i b 0) else nth i a 0.
Proof.
  induction n as [|n IH]; intros a b i Ha Hb; [now destruct a|].
  destruct a as [|x a]; [cbn in Ha; lia|]. destruct b as [|y b]; [cbn in Hb; lia|]. cbn [zipn].
  destruct i as [|i]; [reflexivity|]. cbn [nth]. rewrite IH by (cbn in *; lia).
  destruct (Nat.ltb_spec i n), (Nat.ltb_spec (S i) (S n)); try lia; auto.
Qed.
Lemma zipn_wf f : (forall x y, x < W64 -> y < W64 -> f x y < W64) -> forall n a b, wf a -> wf b -> wf (zipn f n a b).
Proof.
  intros Hf. induction n as [|n IH]; intros a b Ha Hb; [now destruct a|].
  destruct a as [|x a]; [constructor|]. destruct b as [|y b]; [exact Ha|]. inversion Ha; inversion Hb; subst. constructor; auto. now apply IH.
Qed.

(* membership after a[i] = f a[i] b[i] for i < n *)
Lemma has_zipn f g n a b : (n <= length a)%nat -> (n <= length b)%nat ->
  (forall x y k, k < 64 -> N.testbit (f x y) k = g (N.testbit x k) (N.testbit y k)) ->
  forall e, bshas (zipn f n a b) e = if e <? N.of_nat n * 64 then g (bshas a e) (bshas b e) else bshas a e.
Proof.
  intros Ha Hb Hf e. rewrite !has_bit. unfold get. rewrite zipn_nth by auto.
  destruct (Nat.ltb_spec (N.to_nat (e / 64)) n), (N.ltb_spec e (N.of_nat n * 64)); try lia; auto. apply Hf. lia.
Qed.

Lemma has_lt b e : bshas b e = true -> e < bsmax b.
Proof. unfold bshas, bsmax. change (8 * 8) with 64. destruct (N.leb_spec (blen b) (e / 64)); [discriminate|]. lia. Qed.
Lemma has_ge b e : bsmax b <= e -> bshas b e = false.
Proof. intros H. destruct (bshas b e) eqn:E; auto. apply has_lt in E. lia. Qed.

Lemma eqsz_spec a b : wf a -> wf b -> wf (fst (eqsz a b)) /\ wf (snd (eqsz a b)) /\
  (forall e, bshas (fst (eqsz a b)) e = bshas a e) /\ (forall e, bshas (snd (eqsz a b)) e = bshas b e) /\
  length (fst (eqsz a b)) = length (snd (eqsz a b)).
Proof.
  intros Ha Hb. unfold eqsz. cbn [fst snd]. repeat split; auto using ensure_wf, has_ensure.
  pose proof (ensure_len a (Nat.max (length a) (length b))) as [_ H1]. pose proof (ensure_len b (Nat.max (length a) (length b))) as [_ H2].
  rewrite H1, H2 by lia. reflexivity.
Qed.

Lemma union_spec a b : wf a -> wf b -> wf (fst (bsunion a b)) /\ wf (snd (bsunion a b)) /\
  (forall e, bshas (fst (bsunion a b)) e = bshas a e || bshas b e) /\ (forall e, bshas (snd (bsunion a b)) e = bshas b e).
Proof.
  intros Ha Hb. unfold bsunion. pose proof (eqsz_spec a b Ha Hb) as (W1 & W2 & H1 & H2 & L).
  destruct (eqsz a b) as [a' b']. cbn [fst snd] in *. repeat split; auto.
  - apply zipn_wf; auto using lor_lt.
  - intros e. rewrite (has_zipn N.lor orb) by (try lia; intros; apply N.lor_spec). rewrite H1, H2.
    destruct (N.ltb_spec e (N.of_nat (length b') * 64)); auto.
    rewrite <- H2. rewrite (has_ge b'); [now rewrite orb_false_r|]. unfold bsmax, blen. lia.
Qed.

Lemma inter_spec a b : wf a -> wf b -> wf (fst (bsintersect a b)) /\ snd (bsintersect a b) = b /\
  (forall e, bshas (fst (bsintersect a b)) e = bshas a e && (bshas b e || (bsmax b <=? e))).
Proof.
  intros Ha Hb. unfold bsintersect. cbn [fst snd]. repeat split.
  - apply zipn_wf; auto using land_lt.
  - intros e. rewrite (has_zipn N.land andb) by (try lia; intros; apply N.land_spec).
    destruct (N.ltb_spec e (N.of_nat (Nat.min (length a) (length b)) * 64)).
    + assert (bsmax b <=? e = false) by (unfold bsmax, blen; lia). rewrite H0. now rewrite orb_false_r.
    + destruct (N.leb_spec (bsmax b) e); [now rewrite orb_true_r, andb_true_r|].
      rewrite (has_ge a); auto. unfold bsmax, blen in *. lia.
Qed.

Lemma diff_spec a b : wf a -> wf b -> wf (fst (bsdiff a b)) /\ snd (bsdiff a b) = b /\
  (forall e, bshas (fst (bsdiff a b)) e = bshas a e && negb (bshas b e)).
Proof.
  intros Ha Hb. unfold bsdiff. cbn [fst snd]. repeat split.
  - apply zipn_wf; auto. intros x y Hx _. now apply land_lt.
  - intros e. rewrite (has_zipn _ (fun x y => x && negb y)); try lia.
    2:{ intros x y k Hk. rewrite N.land_spec. now rewrite N.lnot_spec_low. }
    destruct (N.ltb_spec e (N.of_nat (Nat.min (length b) (length a)) * 64)); auto.
    destruct (N.leb_spec (bsmax b) e) as [H0|H0].
    + rewrite (has_ge b) by auto. now rewrite andb_true_r.
    + rewrite (has_ge a); auto. unfold bsmax, blen in *. lia.
Qed.

Lemma clear_spec b : wf (bsclear b) /\ forall x, bshas (bsclear b) x = false.
Proof.
  split.
  - apply Forall_forall. intros x Hx. apply in_map_iff in Hx as (y & <- & _). reflexivity.
  - intros x. rewrite has_bit. unfold get, bsclear.
    assert (E : forall n, nth n (map (fun _ : N => 0) b) 0 = 0).
    { intros n. induction b in n |- *; destruct n; cbn; auto. }
    rewrite E. apply N.bits_0.
Qed.

(* --- histories --- *)
Definition R (m : store) (s : sstore) : Prop := (forall r, wf (m r)) /\ forall r e, bshas (m r) e = true <-> s r e.

Lemma bin_R (f : bits -> bits -> bits * bits) (gb : bool -> bool -> bool) (g : Prop -> Prop -> Prop) m s r t :
  R m s -> wf (fst (f (m r) (m t))) -> wf (snd (f (m r) (m t))) ->
  (forall e, bshas (fst (f (m r) (m t))) e = gb (bshas (m r) e) (bshas (m t) e)) ->
  (forall e, bshas (snd (f (m r) (m t))) e = bshas (m t) e) ->
  (forall x y P Q, (x = true <-> P) -> (y = true <-> Q) -> (gb x y = true <-> g P Q)) ->
  R (bin f m r t) (supd s r (fun x => g (s r x) (s t x))).
Proof.
  intros [Hw HR] W1 W2 H1 H2 Hg. unfold bin. destruct (f (m r) (m t)) as [a b]. cbn [fst snd] in *.
  split; intros q; unfold sset, supd; destruct (Nat.eqb_spec q r) as [->|]; auto.
  - destruct (Nat.eqb_spec q t); auto.
  - intros e. rewrite H1. apply Hg; apply HR.
  - intros e. destruct (Nat.eqb_spec q t) as [->|]; auto. rewrite H2. apply HR.
Qed.
Lemma un_R m s r b P : R m s -> wf b -> (forall e, bshas b e = true <-> P e) -> R (sset m r b) (supd s r P).
Proof. intros [Hw HR] Hb HP; split; intros x; unfold sset, supd; destruct (Nat.eqb x r); auto. Qed.

Lemma step_R m s o : R m s -> (forall r t, o = OInter r t -> forall x, s r x -> x < bsmax (m t)) -> R (step m o) (spec_step s o).
Proof.
  intros HR Hfit. pose proof HR as [Hw Hm]. destruct o as [r e|r e|r t|r t|r t|r|r t|r t|r t]; cbn [step spec_step].
  - destruct (put_spec (m r) e (Hw r)) as (H1 & H2 & _). apply un_R; auto. intros x. rewrite H2, orb_true_iff, N.eqb_eq, Hm. tauto.
  - destruct (del_spec (m r) e (Hw r)) as (H1 & H2 & _). apply un_R; auto. intros x. rewrite H2, andb_true_iff, negb_true_iff, N.eqb_neq, Hm. tauto.
  - destruct (union_spec (m r) (m t) (Hw r) (Hw t)) as (A & B & C & D). apply (bin_R _ orb or); auto.
    intros x y P Q H1 H2. rewrite orb_true_iff. tauto.
  - destruct (inter_spec (m r) (m t) (Hw r) (Hw t)) as (A & B & C).
    assert (C' : forall e, bshas (fst (bsintersect (m r) (m t))) e = bshas (m r) e && bshas (m t) e).
    { intros e. rewrite C. destruct (bshas (m r) e) eqn:E; auto. cbn [andb]. apply Hm in E. specialize (Hfit r t eq_refl e E).
      destruct (N.leb_spec (bsmax (m t)) e); [lia|]. now rewrite orb_false_r. }
    apply (bin_R _ andb and); auto; rewrite ?B; auto. intros x y P Q H1 H2. rewrite andb_true_iff. tauto.
  - destruct (diff_spec (m r) (m t) (Hw r) (Hw t)) as (A & B & C).
    apply (bin_R bsdiff (fun x y => x && negb y) (fun P Q => P /\ ~ Q)); auto; rewrite ?B; auto.
    intros x y P Q H1 H2. rewrite andb_true_iff, negb_true_iff. destruct x, y; intuition discriminate.
  - destruct (clear_spec (m r)) as [A B]. apply un_R; auto. intros e. rewrite B. split; [discriminate|tauto].
  - apply un_R; unfold bsdup; auto.
  - destruct (eqsz_spec (m r) (m t) (Hw r) (Hw t)) as (A & B & C & D & _). unfold bin. destruct (eqsz (m r) (m t)) as [a b]. cbn [fst snd] in *.
    split; intros q; unfold sset; destruct (Nat.eqb_spec q r) as [->|]; auto; try (destruct (Nat.eqb_spec q t) as [->|]; auto).
    + intros e. rewrite C. apply Hm.
    + intros e. rewrite D. apply Hm.
  - destruct (eqsz_spec (m r) (m t) (Hw r) (Hw t)) as (A & B & C & D & _). unfold bin. destruct (eqsz (m r) (m t)) as [a b]. cbn [fst snd] in *.
    split; intros q; unfold sset; destruct (Nat.eqb_spec q r) as [->|]; auto; try (destruct (Nat.eqb_spec q t) as [->|]; auto).
    + intros e. rewrite C. apply Hm.
    + intros e. rewrite D. apply Hm.
Qed.

Lemma run_snoc os o : run (os ++ [o]) = step (run os) o.
Proof. unfold run. now rewrite fold_left_app. Qed.
Lemma spec_snoc os o : spec_run (os ++ [o]) = spec_step (spec_run os) o.
Proof. unfold spec_run. now rewrite fold_left_app. Qed.

Lemma run_R os : intersections_fit os -> R (run os) (spec_run os).
Proof.
  induction os as [|o os IH] using rev_ind; intros Hf.
  - split; [intros r; constructor|]. intros r e. cbn. split; [|tauto]. rewrite has_bit, get_oob by (cbn; lia). now rewrite N.bits_0.
  - rewrite run_snoc, spec_snoc. apply step_R.
    + apply IH. intros pre r s post E x Hx. apply (Hf pre r s (post ++ [o])); [|exact Hx]. rewrite E, <- app_assoc. reflexivity.
    + intros r t -> x Hx. apply (Hf os r t []); auto.
Qed.

Lemma run_wf os : forall r, wf (run os r).
Proof.
  induction os as [|o os IH] using rev_ind; intros q; [constructor|]. rewrite run_snoc.
  assert (U : forall r b, wf b -> wf (sset (run os) r b q)) by (intros r b Hb; unfold sset; destruct (Nat.eqb q r); auto).
  assert (B : forall f r s, wf (fst (f (run os r) (run os s))) -> wf (snd (f (run os r) (run os s))) -> wf (bin f (run os) r s q)).
  { intros f r s H1 H2. unfold bin. destruct (f (run os r) (run os s)) as [a b]. cbn [fst snd] in *. unfold sset. destruct (Nat.eqb q r); auto. destruct (Nat.eqb q s); auto. }
  destruct o as [r e|r e|r t|r t|r t|r|r t|r t|r t]; cbn [step].
  - apply U, put_spec, IH.
  - apply U, del_spec, IH.
  - destruct (union_spec (run os r) (run os t) (IH r) (IH t)) as (H1 & H2 & _). now apply B.
  - destruct (inter_spec (run os r) (run os t) (IH r) (IH t)) as (H1 & H2 & _). apply B; auto. now rewrite H2.
  - destruct (diff_spec (run os r) (run os t) (IH r) (IH t)) as (H1 & H2 & _). apply B; auto. now rewrite H2.
  - apply U, clear_spec.
  - apply U, IH.
  - destruct (eqsz_spec (run os r) (run os t) (IH r) (IH t)) as (H1 & H2 & _). now apply B.
  - destruct (eqsz_spec (run os r) (run os t) (IH r) (IH t)) as (H1 & H2 & _). now apply B.
Qed.

(* --- comparisons --- *)
Lemma get_bits a i k : k < 64 -> N.testbit (get a i) k = bshas a (64 * i + k).
Proof. intros H. rewrite has_bit. replace ((64 * i + k) / 64) with i by lia. now replace ((64 * i + k) mod 64) with k by lia. Qed.

Lemma get_eq a b i : wf a -> wf b -> (forall e, bshas a e = bshas b e) -> get a i = get b i.
Proof.
  intros Ha Hb H. apply N.bits_inj. intros k. destruct (N.lt_ge_cases k 64) as [Hk|Hk].
  - now rewrite !get_bits, H by auto.
  - rewrite !testbit_high; auto using get_lt.
Qed.

Lemma eq_spec a b : wf a -> wf b -> (bseq a b = true <-> forall e, bshas a e = bshas b e).
Proof.
  intros Ha Hb. unfold bseq. pose proof (eqsz_spec a b Ha Hb) as (W1 & W2 & H1 & H2 & L).
  destruct (eqsz a b) as [a' b']. cbn [fst snd] in *. rewrite forallb_forall. split.
  - intros H e. rewrite <- H1, <- H2. rewrite !has_bit. destruct (N.lt_ge_cases (e / 64) (blen a')) as [Hl|Hl].
    + specialize (H (N.to_nat (e / 64))). rewrite in_seq in H. unfold blen in Hl. specialize (H ltac:(lia)). apply N.eqb_eq in H. unfold get. now rewrite H.
    + rewrite !get_oob; auto. unfold blen in *. lia.
  - intros H i Hi. apply N.eqb_eq. pose proof (get_eq a' b' (N.of_nat i) W1 W2) as G. unfold get in G. rewrite Nat2N.id in G.
    apply G. intros e. now rewrite H1, H2.
Qed.

Lemma sub_spec a b : wf a -> wf b -> (bsissubset a b = true <-> forall e, bshas b e = true -> bshas a e = true).
Proof.
  intros Ha Hb. unfold bsissubset. pose proof (eqsz_spec a b Ha Hb) as (W1 & W2 & H1 & H2 & L).
  destruct (eqsz a b) as [a' b']. cbn [fst snd] in *. rewrite forallb_forall. split.
  - intros H e. rewrite <- H1, <- H2. rewrite !has_bit. destruct (N.lt_ge_cases (e / 64) (blen a')) as [Hl|Hl].
    + specialize (H (N.to_nat (e / 64))). rewrite in_seq in H. unfold blen in Hl. specialize (H ltac:(lia)). apply N.eqb_eq in H. unfold get.
      rewrite <- H. rewrite N.land_spec, andb_true_iff. tauto.
    + rewrite !(get_oob b'); [now rewrite N.bits_0|]. unfold blen in *. lia.
  - intros H i Hi. apply N.eqb_eq. apply N.bits_inj. intros k. rewrite N.land_spec.
    assert (G : forall c, nth i c 0 = get c (N.of_nat i)) by (intros; unfold get; now rewrite Nat2N.id). rewrite !G.
    destruct (N.lt_ge_cases k 64) as [Hk|Hk].
    + rewrite !get_bits by auto. rewrite H1, H2. specialize (H (64 * N.of_nat i + k)). destruct (bshas b _); auto.
    + rewrite !testbit_high; auto using get_lt.
Qed.

(* --- hash --- *)
Lemma hash_end_spec b e : (hash_end b e <= e)%nat /\ (forall i, (hash_end b e <= i < e)%nat -> nth i b 0 = 0) /\
  (hash_end b e = 0%nat \/ nth (hash_end b e - 1) b 0 <> 0).
Proof.
  induction e as [|e (I1 & I2 & I3)]; cbn [hash_end]; [repeat split; auto; lia|].
  destruct (N.eqb_spec (nth e b 0) 0) as [E|E].
  - split; [lia|]. split; auto. intros i Hi. destruct (Nat.eq_dec i e) as [->|]; auto. apply I2. lia.
  - split; [lia|]. split; [intros; lia|]. right. now replace (S e - 1)%nat with e by lia.
Qed.

Lemma hashed_nth b i : nth i (hashed b) 0 = nth i b 0.
Proof.
  unfold hashed. destruct (hash_end_spec b (length b)) as (H1 & H2 & H3). set (h := hash_end b (length b)) in *.
  destruct (Nat.lt_ge_cases i h) as [Hi|Hi].
  - rewrite <- (firstn_skipn h b) at 2. rewrite app_nth1; auto. rewrite firstn_length. lia.
  - rewrite nth_overflow by (rewrite firstn_length; lia). symmetry.
    destruct (Nat.lt_ge_cases i (length b)); [apply H2; lia|now apply nth_overflow].
Qed.
Lemma hashed_len b : length (hashed b) = hash_end b (length b).
Proof. unfold hashed. rewrite firstn_length. destruct (hash_end_spec b (length b)). lia. Qed.

Lemma hash_spec a b : wf a -> wf b -> (hashed a = hashed b <-> forall e, bshas a e = bshas b e).
Proof.
  intros Ha Hb. split.
  - intros H e. rewrite !has_bit. unfold get. rewrite <- (hashed_nth a), <- (hashed_nth b). now rewrite H.
  - intros H. assert (E : forall i, nth i a 0 = nth i b 0).
    { intros i. pose proof (get_eq a b (N.of_nat i) Ha Hb H) as G. unfold get in G. now rewrite Nat2N.id in G. }
    assert (L : forall x y, (forall i, nth i x 0 = nth i y 0) -> (hash_end x (length x) <= hash_end y (length y))%nat).
    { intros x y Exy. destruct (hash_end_spec x (length x)) as (_ & _ & [Z|Z]); [lia|].
      destruct (Nat.le_gt_cases (hash_end x (length x)) (hash_end y (length y))) as [|G]; auto. exfalso. apply Z. rewrite Exy.
      destruct (Nat.lt_ge_cases (hash_end x (length x) - 1) (length y)); [|now apply nth_overflow].
      apply (proj1 (proj2 (hash_end_spec y (length y)))). lia. }
    apply (nth_ext_d _ _ 0).
    + rewrite !hashed_len. pose proof (L a b E). pose proof (L b a (fun i => eq_sym (E i))). lia.
    + intros i _. now rewrite !hashed_nth.
Qed.

(* --- iteration --- *)
Lemma round_up i : i < 2 ^ 63 -> N.land (i + 64) (N.lnot (8 * 8 - 1) 64) = 64 * (i / 64 + 1).
Proof.
  intros Hi. change (8 * 8 - 1) with (N.ones 6).
  assert (E : N.land (i + 64) (N.lnot (N.ones 6) 64) = N.ldiff (i + 64) (N.ones 6)).
  { apply N.bits_inj. intros k. rewrite N.land_spec, N.ldiff_spec. destruct (N.lt_ge_cases k 64) as [Hk|Hk].
    - now rewrite N.lnot_spec_low.
    - rewrite (testbit_high (i + 64)); auto. unfold W64. change (2 ^ 63) with 9223372036854775808 in Hi. lia. }
  rewrite E. rewrite N.ldiff_ones_r. rewrite N.shiftl_mul_pow2, N.shiftr_div_pow2. change (2 ^ 6) with 64. lia.
Qed.

(* memory bound: the capacity of a set is below 2^63 bits *)
Lemma skip_spec b : bsmax b < 2 ^ 63 -> forall fuel i, (N.to_nat (bsmax b - i) < fuel)%nat ->
  exists j, skip_zero fuel b (bsmax b) i = Some j /\ i <= j /\ (forall e, i <= e < j -> bshas b e = false) /\
    (j < bsmax b -> get b (j / 64) <> 0).
Proof.
  intros HM. induction fuel as [|fuel IH]; intros i Hf; [lia|]. cbn [skip_zero]. change (8 * 8) with 64.
  destruct (N.ltb_spec i (bsmax b)) as [Hi|Hi]; cbn [andb].
  - destruct (N.eqb_spec (get b (i / 64)) 0) as [E|E].
    + change 64 with (8 * 8) at 3. rewrite round_up by lia.
      destruct (IH (64 * (i / 64 + 1))) as (j & Ej & Hj & Hz & Hn).
      * unfold bsmax in *. lia.
      * exists j. rewrite Ej. split; auto. split; [lia|]. split; auto. intros e He.
        destruct (N.lt_ge_cases e (64 * (i / 64 + 1))) as [Hl|Hl]; [|apply Hz; lia].
        rewrite has_bit. replace (e / 64) with (i / 64) by lia. rewrite E. apply N.bits_0.
    + exists i. repeat split; auto; try lia.
  - exists i. repeat split; auto; try lia.
Qed.

Definition next_is (b : bits) (i : N) (r : option N) : Prop :=
  match r with
  | Some e => i <= e /\ bshas b e = true /\ forall j, i <= j -> j < e -> bshas b j = false
  | None => forall j, i <= j -> bshas b j = false
  end.

Lemma iter_for_spec b : bsmax b < 2 ^ 63 -> forall fuel i, (N.to_nat (bsmax b - i) < fuel)%nat ->
  exists r k, iter_for fuel b (bsmax b) i = Some (r, k) /\ next_is b i r /\ (forall e, r = Some e -> k = e + 1).
Proof.
  intros HM. induction fuel as [|fuel IH]; intros i Hf; [lia|]. cbn [iter_for].
  destruct (N.ltb_spec i (bsmax b)) as [Hi|Hi].
  - destruct (skip_spec b HM (S fuel) i Hf) as (j & -> & Hj & Hz & _).
    destruct (bshas b j) eqn:E.
    + exists (Some j), (j + 1). split; auto. split; [|intros e Q; inversion Q; auto]. cbn. repeat split; auto.
    + destruct (IH (j + 1)) as (r & k & Er & Hn & Hk); [lia|]. exists r, k. split; auto. split; auto.
      assert (G : forall e, i <= e -> e < j + 1 -> bshas b e = false).
      { intros e He1 He2. destruct (N.eq_dec e j) as [->|]; auto. apply Hz. lia. }
      destruct r as [e|]; cbn in *.
      * destruct Hn as (A & B & C). split; [lia|]. split; auto. intros q H1 H2. destruct (N.lt_ge_cases q (j + 1)); auto.
      * intros q H1. destruct (N.lt_ge_cases q (j + 1)); auto.
  - exists None, (bsmax b). split; auto. split; [|discriminate]. intros e He. apply has_ge. lia.
Qed.

Lemma drain_spec b : bsmax b < 2 ^ 63 -> forall fuel i, (N.to_nat (bsmax b - i) < fuel)%nat ->
  exists l, drain fuel b i = Some l /\ StronglySorted N.lt l /\ (forall x, In x l <-> i <= x /\ bshas b x = true).
Proof.
  intros HM. induction fuel as [|fuel IH]; intros i Hf; [lia|]. cbn [drain]. unfold iternext.
  destruct (iter_for_spec b HM (S (N.to_nat (bsmax b))) i) as (r & k & -> & Hn & Hk); [lia|].
  destruct r as [e|].
  - specialize (Hk e eq_refl). subst k. destruct Hn as (A & B & C). pose proof (has_lt b e B) as Hlt.
    destruct (IH (e + 1)) as (l & El & Sl & Il); [lia|]. rewrite El. exists (e :: l). split; auto. split.
    + constructor; auto. apply Forall_forall. intros x Hx. apply Il in Hx. lia.
    + intros x. cbn [In]. rewrite Il. split.
      * intros [<-|[H1 H2]]; split; auto; lia.
      * intros [H1 H2]. destruct (N.lt_ge_cases x e) as [Hx|Hx]; [rewrite C in H2 by auto; discriminate|].
        destruct (N.eq_dec e x); auto. right. split; auto. lia.
  - exists []. split; auto. split; [constructor|]. intros x. cbn in *. split; [tauto|]. intros [H1 H2]. rewrite Hn in H2; auto. discriminate.
Qed.

Lemma iterate_spec b : bsmax b < 2 ^ 63 ->
  exists l, drain (S (N.to_nat (bsmax b))) b 0 = Some l /\ StronglySorted N.lt l /\ (forall x, In x l <-> bshas b x = true) /\
    bscount b = Some (N.of_nat (length l)).
Proof.
  intros HM. destruct (drain_spec b HM (S (N.to_nat (bsmax b))) 0) as (l & E & S & I); [lia|]. exists l. split; auto. split; auto. split.
  - intros x. rewrite I. split; [tauto|]. split; auto. lia.
  - unfold bscount. now rewrite E.
Qed.
