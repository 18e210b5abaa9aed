From Verif Require Import Base CBitset_Model CBitset_Spec.
Open Scope N_scope.
Ltac Zify.zify_post_hook ::= Z.div_mod_to_equations.

#[local] Arguments chunk : simpl never.
Definition wf (b : bitset) : Prop := Forall (fun c => c < W64) b.

Lemma chunk_oob b i : nchunks b <= i -> chunk b i = 0.
Proof. intros H; unfold chunk, nchunks in *. apply nth_overflow. lia. Qed.

Lemma chunk_lt b i : wf b -> chunk b i < W64.
Proof.
  intros H; unfold chunk.
  destruct (Nat.lt_ge_cases (N.to_nat i) (length b)) as [Hl|Hl].
  - unfold wf in H; rewrite Forall_forall in H. apply H, nth_In; auto.
  - rewrite nth_overflow by auto. reflexivity.
Qed.

Lemma chunk_ext a b : length a = length b -> (forall i, chunk a i = chunk b i) -> a = b.
Proof.
  intros HL H. apply (nth_ext_d a b 0); auto. intros i Hi.
  specialize (H (N.of_nat i)). unfold chunk in H. rewrite Nat2N.id in H. exact H.
Qed.

Lemma land_bit c k : N.land c (N.shiftl 1 k) = (if N.testbit c k then N.shiftl 1 k else 0).
Proof.
  apply N.bits_inj; intros j. rewrite N.land_spec.
  destruct (N.eq_dec j k) as [->|Hne].
  - destruct (N.testbit c k) eqn:E; [|rewrite N.bits_0; reflexivity].
    reflexivity.
  - assert (Hj : N.testbit (N.shiftl 1 k) j = false).
    { rewrite N.shiftl_1_l. apply N.pow2_bits_false. auto. }
    rewrite Hj, andb_false_r. destruct (N.testbit c k); rewrite ?N.bits_0; auto.
Qed.

Lemma land_bit_nz c k : negb (N.land c (N.shiftl 1 k) =? 0) = N.testbit c k.
Proof.
  rewrite land_bit. destruct (N.testbit c k); reflexivity.
Qed.

Lemma bshas_bit b e : bshas b e = N.testbit (chunk b (e / 64)) (e mod 64).
Proof.
  unfold bshas. destruct (N.leb_spec (nchunks b * 8 * 8) e) as [H|H].
  - rewrite chunk_oob by (unfold nchunks in *; lia). now rewrite N.bits_0.
  - apply land_bit_nz.
Qed.

(* growth *)
Lemma chunk_growto b n i : chunk (growto b n) i = chunk b i.
Proof.
  unfold chunk, growto.
  destruct (Nat.lt_ge_cases (N.to_nat i) (length b)) as [Hl|Hl].
  - now rewrite app_nth1.
  - rewrite app_nth2 by auto. rewrite nth_repeat_d. now rewrite nth_overflow.
Qed.

Lemma growto_length b n : (length b <= n)%nat -> length (growto b n) = n.
Proof. intros H; unfold growto. rewrite app_length, repeat_length. lia. Qed.

Lemma growto_wf b n : wf b -> wf (growto b n).
Proof.
  intros H; unfold wf, growto. apply Forall_app; split; auto.
  apply Forall_forall; intros x Hx. apply repeat_spec in Hx; subst; reflexivity.
Qed.

Lemma eqsz_spec a b :
  let p := eqsz a b in
  length (fst p) = length (snd p) /\
  (forall i, chunk (fst p) i = chunk a i) /\ (forall i, chunk (snd p) i = chunk b i) /\
  (wf a -> wf (fst p)) /\ (wf b -> wf (snd p)).
Proof.
  unfold eqsz, nchunks; cbn.
  set (sz := if _ <? _ then _ else _).
  assert (Ha : (length a <= sz)%nat /\ (length b <= sz)%nat) by (subst sz; destruct (N.ltb_spec (N.of_nat (length b)) (N.of_nat (length a))); lia).
  clearbody sz.
  destruct (Nat.eqb_spec (length a) sz), (Nat.eqb_spec (length b) sz); cbn;
    repeat split; intros; rewrite ?chunk_growto; auto using growto_wf;
    repeat rewrite growto_length by lia; try lia; apply chunk_growto.
Qed.

Lemma zip_length f a b : length (zip f a b) = length a.
Proof. revert b; induction a as [|x a IH]; intros [|y b]; cbn; auto. Qed.

Lemma zip_nth f a b i : f 0 0 = 0 -> length a = length b ->
  nth i (zip f a b) 0 = f (nth i a 0) (nth i b 0).
Proof.
  intros Hf; revert b i; induction a as [|x a IH]; intros [|y b] [|i] H; cbn in *; try lia; auto.
Qed.

Lemma zip_wf f a b : (forall x y, x < W64 -> y < W64 -> f x y < W64) -> wf a -> wf b -> wf (zip f a b).
Proof.
  intros Hf Ha; revert b; induction Ha as [|x a Hx Ha IH]; intros [|y b] Hb; cbn; auto; try constructor; auto;
  inversion Hb; subst; auto. apply IH; auto.
Qed.

Definition binop (f : N -> N -> N) (a b : bitset) : bitset * bitset :=
  let '(a, b) := eqsz a b in (zip f a b, b).

Lemma binop_spec f a b : f 0 0 = 0 -> (forall x y, x < W64 -> y < W64 -> f x y < W64) ->
  wf a -> wf b ->
  wf (fst (binop f a b)) /\ wf (snd (binop f a b)) /\
  (forall i, chunk (fst (binop f a b)) i = f (chunk a i) (chunk b i)) /\
  (forall i, chunk (snd (binop f a b)) i = chunk b i).
Proof.
  intros Hf Hw Ha Hb. unfold binop.
  pose proof (eqsz_spec a b) as (HL & H1 & H2 & H3 & H4).
  destruct (eqsz a b) as [a' b']; cbn in *.
  repeat split; auto using zip_wf.
  intros i. rewrite <- H1, <- H2. unfold chunk. rewrite zip_nth by auto. reflexivity.
Qed.

Lemma lor_lt x y : x < W64 -> y < W64 -> N.lor x y < W64.
Proof. intros Hx Hy. apply lt_W64_testbit; intros k Hk. rewrite N.lor_spec, !testbit_high; auto. Qed.
Lemma land_lt x y : x < W64 -> N.land x y < W64.
Proof. intros Hx. apply lt_W64_testbit; intros k Hk. rewrite N.land_spec, (testbit_high x); auto. Qed.

Lemma pow2_lt k : k < 64 -> N.shiftl 1 k < W64.
Proof. intros H. rewrite N.shiftl_1_l, W64_pow. apply N.pow_lt_mono_r; lia. Qed.

Lemma has_binop f g a b : (forall x y k, k < 64 -> N.testbit (f x y) k = g (N.testbit x k) (N.testbit y k)) ->
  f 0 0 = 0 -> (forall x y, x < W64 -> y < W64 -> f x y < W64) ->
  wf a -> wf b ->
  wf (fst (binop f a b)) /\ wf (snd (binop f a b)) /\
  (forall e, bshas (fst (binop f a b)) e = g (bshas a e) (bshas b e)) /\
  (forall e, bshas (snd (binop f a b)) e = bshas b e).
Proof.
  intros Hg H0 Hw Ha Hb.
  destruct (binop_spec f a b H0 Hw Ha Hb) as (W1 & W2 & C1 & C2).
  repeat split; auto; intros e; rewrite !bshas_bit, ?C1, ?C2; auto.
  apply Hg. apply N.mod_lt; lia.
Qed.

Lemma union_spec a b : wf a -> wf b ->
  wf (fst (bsunion a b)) /\ wf (snd (bsunion a b)) /\
  (forall e, bshas (fst (bsunion a b)) e = bshas a e || bshas b e) /\
  (forall e, bshas (snd (bsunion a b)) e = bshas b e).
Proof.
  apply (has_binop N.lor orb); auto using lor_lt. intros; apply N.lor_spec.
Qed.
Lemma inter_spec a b : wf a -> wf b ->
  wf (fst (bsintersect a b)) /\ wf (snd (bsintersect a b)) /\
  (forall e, bshas (fst (bsintersect a b)) e = bshas a e && bshas b e) /\
  (forall e, bshas (snd (bsintersect a b)) e = bshas b e).
Proof.
  apply (has_binop N.land andb); auto using land_lt. intros; apply N.land_spec.
Qed.
Lemma diff_spec a b : wf a -> wf b ->
  wf (fst (bsdiff a b)) /\ wf (snd (bsdiff a b)) /\
  (forall e, bshas (fst (bsdiff a b)) e = bshas a e && negb (bshas b e)) /\
  (forall e, bshas (snd (bsdiff a b)) e = bshas b e).
Proof.
  apply (has_binop (fun x y => N.land x (N.lnot y 64)) (fun p q => p && negb q)); auto using land_lt.
  intros x y k Hk. rewrite N.land_spec, N.lnot_spec_low; auto.
Qed.

Lemma wf_upd b i c : wf b -> c < W64 -> wf (upd b i c).
Proof. intros H Hc. unfold wf. apply Forall_upd; auto. Qed.

Lemma chunk_upd b i j c : chunk (upd b (N.to_nat i) c) j = if (i =? j) && (i <? nchunks b) then c else chunk b j.
Proof.
  unfold chunk, nchunks. rewrite nth_upd.
  destruct (Nat.eqb_spec (N.to_nat i) (N.to_nat j)), (N.eqb_spec i j); try lia; cbn; auto.
  destruct (Nat.ltb_spec (N.to_nat i) (length b)), (N.ltb_spec i (N.of_nat (length b))); try lia; auto.
Qed.

Lemma put_spec b e : wf b -> wf (bsput b e) /\ forall x, bshas (bsput b e) x = bshas b x || (x =? e).
Proof.
  intros Hb. unfold bsput. set (b' := if _ <=? _ then _ else _).
  assert (Hb' : wf b') by (subst b'; destruct (_ <=? _); auto using growto_wf).
  assert (Hc : forall i, chunk b' i = chunk b i) by (intros; subst b'; destruct (_ <=? _); auto using chunk_growto).
  assert (Hn : e / 64 < nchunks b').
  { subst b'; destruct (N.leb_spec (nchunks b * 64) e).
    - unfold nchunks in *. rewrite growto_length; lia.
    - lia. }
  split.
  - apply wf_upd; auto. apply lor_lt; [apply chunk_lt; auto|]. apply pow2_lt. lia.
  - intros x. rewrite !bshas_bit. rewrite chunk_upd, !Hc.
    destruct (N.ltb_spec (e / 64) (nchunks b')) as [_|]; [|lia]. rewrite andb_true_r.
    destruct (N.eqb_spec (e / 64) (x / 64)) as [He|Hne].
    + rewrite N.lor_spec, N.shiftl_1_l, N.pow2_bits_eqb, He.
      f_equal. destruct (N.eqb_spec (e mod 64) (x mod 64)), (N.eqb_spec x e); auto; lia.
    + destruct (N.eqb_spec x e); [subst; lia|]. now rewrite orb_false_r.
Qed.

Lemma del_spec b e : wf b -> wf (bsdel b e) /\ forall x, bshas (bsdel b e) x = bshas b x && negb (x =? e).
Proof.
  intros Hb. unfold bsdel. destruct (N.ltb_spec e (nchunks b * 64)) as [Hlt|Hge].
  - split.
    + apply wf_upd; auto. apply land_lt, chunk_lt; auto.
    + intros x. rewrite !bshas_bit, chunk_upd.
      destruct (N.ltb_spec (e / 64) (nchunks b)) as [_|]; [|unfold nchunks in *; lia]. rewrite andb_true_r.
      destruct (N.eqb_spec (e / 64) (x / 64)) as [He|Hne].
      * rewrite N.land_spec, N.lnot_spec_low by lia. rewrite N.shiftl_1_l, N.pow2_bits_eqb, He.
        f_equal. f_equal. destruct (N.eqb_spec (e mod 64) (x mod 64)), (N.eqb_spec x e); auto; lia.
      * destruct (N.eqb_spec x e); [subst; lia|]. now rewrite andb_true_r.
  - split; auto. intros x. destruct (N.eqb_spec x e) as [->|]; [|now rewrite andb_true_r].
    rewrite andb_false_r, bshas_bit, chunk_oob; [apply N.bits_0|]. unfold nchunks in *; lia.
Qed.

Lemma clear_spec b : wf (bsclear b) /\ forall x, bshas (bsclear b) x = false.
Proof.
  split.
  - unfold wf, bsclear. apply Forall_forall. intros x Hx. apply in_map_iff in Hx as (y & <- & _). reflexivity.
  - intros x. rewrite bshas_bit. unfold chunk, bsclear.
    assert (E : nth (N.to_nat (x / 64)) (map (fun _ => 0) b) 0 = 0).
    { generalize (N.to_nat (x/64)). induction b as [|c b IH]; intros [|n]; cbn; auto. }
    now rewrite E, N.bits_0.
Qed.

(* store simulation *)
Definition R (m : store) (s : sstore) : Prop :=
  (forall r, wf (m r)) /\ forall r e, bshas (m r) e = true <-> s r e.

Lemma bin_R f (g : Prop -> Prop -> Prop) (gb : bool -> bool -> bool) m s r t :
  (forall a b, wf a -> wf b -> wf (fst (f a b)) /\ wf (snd (f a b)) /\
     (forall e, bshas (fst (f a b)) e = gb (bshas a e) (bshas b e)) /\
     (forall e, bshas (snd (f a b)) e = bshas b e)) ->
  (forall p q P Q, (p = true <-> P) -> (q = true <-> Q) -> (gb p q = true <-> g P Q)) ->
  R m s -> R (bin f m r t) (supd s r (fun x => g (s r x) (s t x))).
Proof.
  intros Hf Hg [Hw HR]. unfold bin.
  destruct (Hf (m r) (m t) (Hw r) (Hw t)) as (W1 & W2 & E1 & E2).
  destruct (f (m r) (m t)) as [a b]; cbn in *.
  split.
  - intros x; unfold sset. destruct (Nat.eqb x r); auto. destruct (Nat.eqb x t); auto.
  - intros x e; unfold sset, supd. destruct (Nat.eqb_spec x r) as [->|].
    + rewrite E1. apply Hg; auto.
    + destruct (Nat.eqb_spec x t) as [->|]; auto. rewrite E2; auto.
Qed.

Lemma un_R m s r b P : R m s -> wf b -> (forall e, bshas b e = true <-> P e) -> R (sset m r b) (supd s r P).
Proof.
  intros [Hw HR] Hb HP; split; intros x; unfold sset, supd; destruct (Nat.eqb x r); auto.
Qed.

Lemma step_R m s o : R m s -> R (step m o) (spec_step s o).
Proof.
  intros HR. pose proof HR as [Hw Hm]. destruct o as [r e|r e|r t|r t|r t|r|r t]; cbn [step spec_step].
  - destruct (put_spec (m r) e (Hw r)) as [H1 H2]. apply un_R; auto.
    intros x. rewrite H2, orb_true_iff, N.eqb_eq, Hm. tauto.
  - destruct (del_spec (m r) e (Hw r)) as [H1 H2]. apply un_R; auto.
    intros x. rewrite H2, andb_true_iff, negb_true_iff, N.eqb_neq, Hm. tauto.
  - apply bin_R with (g := or) (gb := orb); auto using union_spec.
    intros p q P Q Hp Hq; rewrite orb_true_iff; tauto.
  - apply bin_R with (g := and) (gb := andb); auto using inter_spec.
    intros p q P Q Hp Hq; rewrite andb_true_iff; tauto.
  - apply bin_R with (g := fun P Q => P /\ ~ Q) (gb := fun p q => p && negb q); auto using diff_spec.
    intros p q P Q Hp Hq. rewrite andb_true_iff, negb_true_iff, Hp.
    destruct q; split; intros [? ?]; split; auto; try tauto; try discriminate.
    intros HQ; apply Hq in HQ; discriminate.
  - destruct (clear_spec (m r)) as [H1 H2]. apply un_R; auto.
    intros x; rewrite H2. split; [discriminate|tauto].
  - apply un_R; unfold bsdup; auto.
Qed.

Lemma init_R : R (fun _ => mkbs) (fun _ _ => False).
Proof.
  split.
  - intros _. repeat constructor.
  - intros _ e. rewrite bshas_bit. unfold mkbs, chunk.
    assert (E : nth (N.to_nat (e / 64)) [0] 0 = 0) by (destruct (N.to_nat (e/64)) as [|[|n]]; auto).
    rewrite E, N.bits_0. split; [discriminate|tauto].
Qed.

Lemma run_R os : R (run os) (spec_run os).
Proof.
  unfold run, spec_run. generalize init_R. generalize (fun _ : nat => mkbs) (fun (_ : nat) (_ : N) => False).
  induction os as [|o os IH]; intros m s H; cbn; auto. apply IH, step_R, H.
Qed.

Lemma run_wf os r : wf (run os r).
Proof. apply run_R. Qed.

(* --- equality, subset, emptiness --- *)
Lemma empty_spec b : wf b -> (bsisempty b = true <-> forall e, bshas b e = false).
Proof.
  intros Hb. unfold bsisempty. rewrite forallb_forall. split.
  - intros H e. rewrite bshas_bit.
    assert (E : chunk b (e / 64) = 0).
    { unfold chunk. destruct (Nat.lt_ge_cases (N.to_nat (e/64)) (length b)).
      - apply N.eqb_eq, H, nth_In; auto.
      - now apply nth_overflow. }
    now rewrite E, N.bits_0.
  - intros H c Hc. apply N.eqb_eq.
    apply In_nth with (d := 0) in Hc as (i & Hi & Hn).
    apply N.bits_inj_0; intros k.
    destruct (N.lt_ge_cases k 64) as [Hk|Hk].
    + specialize (H (N.of_nat i * 64 + k)). rewrite bshas_bit in H.
      replace ((N.of_nat i * 64 + k) / 64) with (N.of_nat i) in H by lia.
      replace ((N.of_nat i * 64 + k) mod 64) with k in H by lia.
      unfold chunk in H. rewrite Nat2N.id, Hn in H. exact H.
    + apply testbit_high; auto. unfold wf in Hb; rewrite Forall_forall in Hb.
      subst c; apply Hb, nth_In; auto.
Qed.

Lemma chunks_of_has a b i (g : bool -> bool -> bool) : wf a -> wf b -> g false false = true ->
  (forall e, g (bshas a e) (bshas b e) = true) ->
  forall k, g (N.testbit (chunk a i) k) (N.testbit (chunk b i) k) = true.
Proof.
  intros Ha Hb G H k. destruct (N.lt_ge_cases k 64) as [Hk|Hk].
  - specialize (H (i * 64 + k)). rewrite !bshas_bit in H.
    replace ((i * 64 + k) / 64) with i in H by lia.
    now replace ((i * 64 + k) mod 64) with k in H by lia.
  - rewrite !testbit_high; auto using chunk_lt.
Qed.

Lemma forallb_combine (g : N -> N -> bool) a b : length a = length b ->
  (forallb (fun p => g (fst p) (snd p)) (combine a b) = true <->
   forall i, i < nchunks a -> g (chunk a i) (chunk b i) = true).
Proof.
  intros HL. rewrite forallb_forall. split.
  - intros H i Hi. unfold nchunks in Hi.
    specialize (H (chunk a i, chunk b i)). apply H.
    unfold chunk. rewrite <- combine_nth by auto. apply nth_In. rewrite combine_length. lia.
  - intros H [x y] Hin. apply In_nth with (d := (0,0)) in Hin as (i & Hi & Hn).
    rewrite combine_length in Hi. rewrite combine_nth in Hn by auto. inversion Hn; subst.
    specialize (H (N.of_nat i)). unfold chunk, nchunks in H. rewrite Nat2N.id in H. apply H; lia.
Qed.

Lemma eq_spec a b : wf a -> wf b -> (bseq (Some a) (Some b) = true <-> forall e, bshas a e = bshas b e).
Proof.
  intros Ha Hb. unfold bseq.
  pose proof (eqsz_spec a b) as (HL & H1 & H2 & H3 & H4).
  destruct (eqsz a b) as [a' b']; cbn in *.
  rewrite (forallb_combine N.eqb) by auto. split.
  - intros H e. rewrite !bshas_bit, <- H1, <- H2.
    destruct (N.lt_ge_cases (e/64) (nchunks a')) as [Hl|Hl].
    + specialize (H _ Hl). apply N.eqb_eq in H. now rewrite H.
    + rewrite !chunk_oob; auto. unfold nchunks in *; lia.
  - intros H i _. apply N.eqb_eq. rewrite H1, H2. apply N.bits_inj; intros k.
    pose proof (chunks_of_has a b i Bool.eqb Ha Hb eq_refl) as C.
    apply eqb_prop, C. intros e; rewrite H; apply eqb_reflx.
Qed.

Lemma subset_spec a b : wf a -> wf b ->
  (bsissubset a b = true <-> forall e, bshas a e = true -> bshas b e = true).
Proof.
  intros Ha Hb. unfold bsissubset.
  pose proof (eqsz_spec a b) as (HL & H1 & H2 & H3 & H4).
  destruct (eqsz a b) as [a' b']; cbn in *.
  rewrite (forallb_combine (fun x y => N.land y x =? x)) by auto. split.
  - intros H e. rewrite !bshas_bit, <- H1, <- H2.
    destruct (N.lt_ge_cases (e/64) (nchunks a')) as [Hl|Hl].
    + specialize (H _ Hl). apply N.eqb_eq in H. intros Ht. rewrite <- H, N.land_spec in Ht.
      apply andb_true_iff in Ht; tauto.
    + rewrite (chunk_oob a') by auto. now rewrite N.bits_0.
  - intros H i _. apply N.eqb_eq. rewrite H1, H2. apply N.bits_inj; intros k.
    rewrite N.land_spec.
    pose proof (chunks_of_has a b i implb Ha Hb eq_refl) as C.
    specialize (C (fun e => proj2 (implb_true_iff _ _) (H e)) k).
    destruct (N.testbit (chunk a i) k), (N.testbit (chunk b i) k); auto.
Qed.

(* --- firstbit --- *)
Definition lowest (b n : N) : Prop := N.testbit b n = true /\ forall j, j < n -> N.testbit b j = false.

Lemma land_ones_0 b w : N.land b (N.ones w) = 0 <-> forall j, j < w -> N.testbit b j = false.
Proof.
  split.
  - intros H j Hj. assert (E : N.testbit (N.land b (N.ones w)) j = false) by (rewrite H; apply N.bits_0).
    rewrite N.land_spec, N.ones_spec_low, andb_true_r in E; auto.
  - intros H. apply N.bits_inj_0; intros j. rewrite N.land_spec.
    destruct (N.lt_ge_cases j w) as [Hj|Hj].
    + now rewrite H.
    + now rewrite N.ones_spec_high, andb_false_r.
Qed.

Lemma lowest_shift b w m : N.land b (N.ones w) = 0 -> lowest (N.shiftr b w) m -> lowest b (m + w).
Proof.
  intros H [H1 H2]. rewrite land_ones_0 in H. split.
  - rewrite N.shiftr_spec in H1 by lia. exact H1.
  - intros j Hj. destruct (N.lt_ge_cases j w) as [|Hw]; auto.
    specialize (H2 (j - w)). rewrite N.shiftr_spec in H2 by lia.
    replace (j - w + w) with j in H2 by lia. apply H2; lia.
Qed.

Lemma nibble_case c : c < 16 -> c <> 0 ->
  let n := nth (N.to_nat c) firstbit_tab 0 in lowest c n /\ n < 4.
Proof.
  intros Hc Hnz.
  assert (H : forallb (fun k => let c := N.of_nat k in let n := nth k firstbit_tab 0 in
     (c =? 0) || (N.testbit c n && (n <? 4) && forallb (fun j => (n <=? N.of_nat j) || negb (N.testbit c (N.of_nat j))) (seq 0 4))) (seq 0 16) = true)
    by (vm_compute; reflexivity).
  rewrite forallb_forall in H. specialize (H (N.to_nat c)).
  cbv zeta in *. rewrite N2Nat.id in H.
  assert (Hin : In (N.to_nat c) (seq 0 16)) by (apply in_seq; lia).
  specialize (H Hin). apply orb_true_iff in H as [H|H]; [apply N.eqb_eq in H; lia|].
  apply andb_true_iff in H as [H H3]. apply andb_true_iff in H as [H1 H2].
  apply N.ltb_lt in H2. split; auto. split; auto.
  intros j Hj. rewrite forallb_forall in H3. specialize (H3 (N.to_nat j)).
  rewrite N2Nat.id in H3. assert (Hin2 : In (N.to_nat j) (seq 0 4)) by (apply in_seq; lia).
  specialize (H3 Hin2). apply orb_true_iff in H3 as [H3|H3].
  - apply N.leb_le in H3; lia.
  - now apply negb_true_iff in H3.
Qed.

Lemma lowest_land b w n : n < w -> lowest (N.land b (N.ones w)) n -> lowest b n.
Proof.
  intros Hn [H1 H2]. split.
  - rewrite N.land_spec in H1. now apply andb_true_iff in H1.
  - intros j Hj. specialize (H2 j Hj). rewrite N.land_spec, N.ones_spec_low, andb_true_r in H2 by lia. auto.
Qed.

Lemma shiftr_lt b w k : b < 2 ^ (w + k) -> N.shiftr b w < 2 ^ k.
Proof.
  intros H. rewrite N.shiftr_div_pow2. apply N.div_lt_upper_bound.
  - apply N.pow_nonzero; lia.
  - now rewrite <- N.pow_add_r.
Qed.

Lemma land_ones_nz_shift b w k : b < 2 ^ (w + k) -> b <> 0 -> N.land b (N.ones w) = 0 ->
  N.shiftr b w <> 0 /\ N.shiftr b w < 2 ^ k.
Proof.
  intros Hlt Hnz H0. split; [|now apply shiftr_lt].
  intros E. apply Hnz. apply N.bits_inj_0; intros j.
  destruct (N.lt_ge_cases j w) as [Hj|Hj].
  - now apply (proj1 (land_ones_0 b w) H0).
  - assert (T : N.testbit (N.shiftr b w) (j - w) = false) by (rewrite E; apply N.bits_0).
    rewrite N.shiftr_spec in T by lia. now replace (j - w + w) with j in T by lia.
Qed.

Definition fstage (w : N) (p : N * N) : N * N :=
  let '(n, b) := p in if N.land b (N.ones w) =? 0 then (n + w, N.shiftr b w) else (n, b).

(* low 2w bits of b non-zero ==> after the stage low w bits non-zero *)
Lemma fstage_inv b0 w n b :
  N.land b (N.ones (2 * w)) <> 0 ->
  (forall m, lowest b m -> lowest b0 (n + m)) ->
  let '(n', b') := fstage w (n, b) in
  N.land b' (N.ones w) <> 0 /\ (forall m, lowest b' m -> lowest b0 (n' + m)).
Proof.
  intros Hnz Hl. unfold fstage. destruct (N.eqb_spec (N.land b (N.ones w)) 0) as [H0|H0].
  - split.
    + intros E. apply Hnz. apply land_ones_0. intros j Hj.
      destruct (N.lt_ge_cases j w) as [Hw|Hw].
      * now apply (proj1 (land_ones_0 b w) H0).
      * pose proof (proj1 (land_ones_0 _ _) E (j - w)) as T.
        rewrite N.shiftr_spec in T by lia. replace (j - w + w) with j in T by lia. apply T; lia.
    + intros m Hm. replace (n + w + m) with (n + (m + w)) by lia.
      apply Hl, lowest_shift; auto.
  - split; auto.
Qed.

Lemma firstbit_eq b : firstbit b =
  let '(n, c) := fstage 4 (fstage 8 (fstage 16 (fstage 32 (0, b)))) in
  n + nth (N.to_nat (N.land c (N.ones 4))) firstbit_tab 0.
Proof.
  unfold firstbit, fstage.
  change 0xffffffff with (N.ones 32). change 0xffff with (N.ones 16).
  change 0xff with (N.ones 8). change 0xf with (N.ones 4).
  destruct (N.land b (N.ones 32) =? 0);
  match goal with |- context [N.land ?x (N.ones 16) =? 0] => destruct (N.land x (N.ones 16) =? 0) end;
  match goal with |- context [N.land ?x (N.ones 8) =? 0] => destruct (N.land x (N.ones 8) =? 0) end;
  match goal with |- context [N.land ?x (N.ones 4) =? 0] => destruct (N.land x (N.ones 4) =? 0) end;
  reflexivity.
Qed.

Lemma firstbit_lowest b : b < W64 -> b <> 0 -> lowest b (firstbit b).
Proof.
  intros Hb Hnz. rewrite firstbit_eq.
  assert (I0 : N.land b (N.ones (2 * 32)) <> 0).
  { rewrite N.land_ones, N.mod_small; auto. }
  assert (L0 : forall m, lowest b m -> lowest b (0 + m)) by (intros m Hm; exact Hm).
  pose proof (fstage_inv b 32 0 b I0 L0) as S1. destruct (fstage 32 (0,b)) as [n1 b1]. destruct S1 as [I1 L1].
  pose proof (fstage_inv b 16 n1 b1 I1 L1) as S2. destruct (fstage 16 (n1,b1)) as [n2 b2]. destruct S2 as [I2 L2].
  pose proof (fstage_inv b 8 n2 b2 I2 L2) as S3. destruct (fstage 8 (n2,b2)) as [n3 b3]. destruct S3 as [I3 L3].
  pose proof (fstage_inv b 4 n3 b3 I3 L3) as S4. destruct (fstage 4 (n3,b3)) as [n4 b4]. destruct S4 as [I4 L4].
  apply L4.
  assert (Hlt : N.land b4 (N.ones 4) < 16) by (rewrite N.land_ones; apply N.mod_lt; discriminate).
  destruct (nibble_case _ Hlt I4) as [HA HB].
  eapply lowest_land; eauto.
Qed.

Lemma firstbit_lt b : b < W64 -> b <> 0 -> firstbit b < 64.
Proof.
  intros Hb Hnz. destruct (firstbit_lowest b Hb Hnz) as [H _].
  destruct (N.lt_ge_cases (firstbit b) 64) as [|H1]; auto.
  rewrite testbit_high in H; auto; discriminate.
Qed.

(* --- iteration --- *)
Definition next_is (b : bitset) (i : N) (r : option N) : Prop :=
  match r with
  | Some e => i <= e /\ bshas b e = true /\ forall j, i <= j -> j < e -> bshas b j = false
  | None => forall j, i <= j -> bshas b j = false
  end.

Lemma has_at b t k : k < 64 -> bshas b (64 * t + k) = N.testbit (chunk b t) k.
Proof.
  intros H. rewrite bshas_bit. replace ((64*t+k)/64) with t by lia. now replace ((64*t+k) mod 64) with k by lia.
Qed.

Lemma skipn_cons {A} (l : list A) n x t d : skipn n l = x :: t -> nth n l d = x /\ skipn (S n) l = t /\ (n < length l)%nat.
Proof.
  revert l; induction n as [|n IH]; intros [|y l] H; cbn in *; try discriminate.
  - inversion H; subst; repeat split; auto; lia.
  - destruct (IH l H) as (A1 & A2 & A3). repeat split; auto. lia.
Qed.

Lemma iter_scan_spec bs i : wf bs -> forall rest b t,
  rest = skipn (S (N.to_nat t)) bs -> b < W64 ->
  (forall k, k < 64 -> N.testbit b k = bshas bs (64 * t + k) && (i <=? 64 * t + k)) ->
  (forall j, i <= j -> j < 64 * t -> bshas bs j = false) ->
  i < 64 * (t + 1) ->
  next_is bs i (iter_scan b t rest).
Proof.
  intros Hbs. induction rest as [|c rest IH]; intros b t Hr Hb Hk Hlow Hi; cbn [iter_scan].
  - destruct (N.eqb_spec b 0) as [->|Hnz]; cbn [negb].
    + intros j Hj. destruct (N.lt_ge_cases j (64 * t)) as [|Hge]; auto.
      destruct (N.lt_ge_cases j (64 * (t+1))) as [Hl|Hl].
      * specialize (Hk (j - 64 * t)). replace (64 * t + (j - 64*t)) with j in Hk by lia.
        rewrite N.bits_0 in Hk. destruct (N.leb_spec i j); [|lia]. rewrite andb_true_r in Hk. symmetry; apply Hk; lia.
      * rewrite bshas_bit, chunk_oob; [apply N.bits_0|].
        assert (length bs <= S (N.to_nat t))%nat.
        { pose proof (skipn_length (S (N.to_nat t)) bs) as SL. rewrite <- Hr in SL. cbn in SL. lia. }
        unfold nchunks; lia.
    + destruct (firstbit_lowest b Hb Hnz) as [F1 F2]. pose proof (firstbit_lt b Hb Hnz) as F3.
      pose proof (Hk _ F3) as F4. rewrite F1 in F4. symmetry in F4. apply andb_true_iff in F4 as [F4 F5].
      apply N.leb_le in F5. repeat split; auto.
      intros j Hj1 Hj2. destruct (N.lt_ge_cases j (64 * t)) as [|Hge]; auto.
      specialize (Hk (j - 64 * t)). replace (64 * t + (j - 64*t)) with j in Hk by lia.
      rewrite F2 in Hk by lia. destruct (N.leb_spec i j); [|lia]. rewrite andb_true_r in Hk. symmetry; apply Hk; lia.
  - destruct (N.eqb_spec b 0) as [->|Hnz]; cbn [negb].
    + destruct (skipn_cons bs (S (N.to_nat t)) _ _ 0 (eq_sym Hr)) as (E1 & E2 & E3).
      assert (Ec : c = chunk bs (t + 1)) by (unfold chunk; replace (N.to_nat (t+1)) with (S (N.to_nat t)) by lia; auto).
      assert (Hprev : forall j, i <= j -> j < 64 * (t + 1) -> bshas bs j = false).
      { intros j Hj1 Hj2. destruct (N.lt_ge_cases j (64 * t)) as [|Hge]; auto.
        specialize (Hk (j - 64 * t)). replace (64 * t + (j - 64*t)) with j in Hk by lia.
        rewrite N.bits_0 in Hk. destruct (N.leb_spec i j); [|lia]. rewrite andb_true_r in Hk. symmetry; apply Hk; lia. }
      apply IH.
      * replace (N.to_nat (t+1)) with (S (N.to_nat t)) by lia. auto.
      * rewrite Ec; apply chunk_lt; auto.
      * intros k Hk'. rewrite has_at by auto. rewrite Ec. destruct (N.leb_spec i (64 * (t+1) + k)); [|lia]. now rewrite andb_true_r.
      * auto.
      * lia.
    + destruct (firstbit_lowest b Hb Hnz) as [F1 F2]. pose proof (firstbit_lt b Hb Hnz) as F3.
      pose proof (Hk _ F3) as F4. rewrite F1 in F4. symmetry in F4. apply andb_true_iff in F4 as [F4 F5].
      apply N.leb_le in F5. repeat split; auto.
      intros j Hj1 Hj2. destruct (N.lt_ge_cases j (64 * t)) as [|Hge]; auto.
      specialize (Hk (j - 64 * t)). replace (64 * t + (j - 64*t)) with j in Hk by lia.
      rewrite F2 in Hk by lia. destruct (N.leb_spec i j); [|lia]. rewrite andb_true_r in Hk. symmetry; apply Hk; lia.
Qed.

Lemma bsiter_spec bs i : wf bs -> next_is bs i (bsiter bs i).
Proof.
  intros Hbs. unfold bsiter. destruct (N.leb_spec (nchunks bs) (i / 64)) as [H|H].
  - intros j Hj. rewrite bshas_bit, chunk_oob; [apply N.bits_0|]. lia.
  - apply iter_scan_spec; auto.
    + apply land_lt, chunk_lt; auto.
    + intros k Hk. rewrite has_at, N.land_spec by auto. f_equal.
      rewrite N.lnot_spec_low by auto.
      replace (N.shiftl 1 (i mod 64) - 1) with (N.ones (i mod 64)) by (unfold N.ones; now rewrite N.sub_1_r).
      destruct (N.lt_ge_cases k (i mod 64)) as [Hl|Hl].
      * rewrite N.ones_spec_low by auto. cbn [negb]. symmetry. apply N.leb_gt. lia.
      * rewrite N.ones_spec_high by auto. cbn [negb]. symmetry. apply N.leb_le. lia.
    + intros j Hj1 Hj2. lia.
    + lia.
Qed.

Lemma has_lt_max bs e : bshas bs e = true -> e < 64 * nchunks bs.
Proof.
  unfold bshas. destruct (N.leb_spec (nchunks bs * 8 * 8) e); [discriminate|]. lia.
Qed.

Lemma bsloop_spec bs : wf bs -> forall fuel i,
  (N.to_nat (64 * nchunks bs - i) < fuel)%nat ->
  exists l, bsloop fuel bs i = Some l /\ StronglySorted N.lt l /\
    (forall x, In x l <-> i <= x /\ bshas bs x = true).
Proof.
  intros Hbs. induction fuel as [|f IH]; intros i Hf; [lia|]. cbn [bsloop].
  pose proof (bsiter_spec bs i Hbs) as H. destruct (bsiter bs i) as [e|]; cbn in H.
  - destruct H as (H1 & H2 & H3). pose proof (has_lt_max _ _ H2) as H4.
    destruct (IH (e + 1)) as (l & E & S & I); [lia|].
    rewrite E; cbn. exists (e :: l). split; auto. split.
    + constructor; auto. apply Forall_forall; intros x Hx. apply I in Hx. lia.
    + intros x; cbn. rewrite I. split.
      * intros [->|[? ?]]; split; auto; lia.
      * intros [Hx1 Hx2]. destruct (N.eq_dec e x); auto. right. split; auto.
        destruct (N.lt_ge_cases x e); [|lia]. rewrite H3 in Hx2 by auto. discriminate.
  - exists []. split; [reflexivity|]. split; [constructor|]. intros x; cbn [In]. split; [tauto|]. intros [? Hx]. rewrite H in Hx by auto. discriminate.
Qed.

(* --- count --- *)
Lemma count_inner c l n :
  fold_left (fun n j => if negb (N.land c (N.shiftl 1 (N.of_nat j)) =? 0) then n + 1 else n) l n =
  n + N.of_nat (length (filter (fun j => N.testbit c (N.of_nat j)) l)).
Proof.
  revert n; induction l as [|j l IH]; intros n; cbn [fold_left filter]; [cbn; lia|].
  rewrite IH, land_bit_nz. destruct (N.testbit c (N.of_nat j)); cbn [length]; lia.
Qed.

Definition elems (bs : bitset) : list N :=
  filter (bshas bs) (map N.of_nat (seq 0 (64 * length bs))).

Lemma filter_map_len {A B} (f : A -> B) p l : length (filter p (map f l)) = length (filter (fun x => p (f x)) l).
Proof. induction l as [|x l IH]; cbn; auto. destruct (p (f x)); cbn; auto. Qed.

Lemma filter_len_ext {A} (p q : A -> bool) l : (forall x, In x l -> p x = q x) -> length (filter p l) = length (filter q l).
Proof. intros H. rewrite (filter_ext_in p q l); auto. Qed.

Lemma chunk_count pre c bs w : w = 64%nat ->
  length (filter (fun j : nat => N.testbit c (N.of_nat j)) (seq 0 w)) =
  length (filter (fun e : nat => bshas (pre ++ c :: bs) (N.of_nat e)) (seq (w * length pre) w)).
Proof.
  intros Hw. rewrite <- (Nat.add_0_r (w * length pre)), <- map_add_seq, filter_map_len.
  apply filter_len_ext. intros j Hj. apply in_seq in Hj. subst w.
  replace (N.of_nat (64 * length pre + j)) with (64 * N.of_nat (length pre) + N.of_nat j) by lia.
  rewrite has_at by lia. f_equal. unfold chunk. rewrite Nat2N.id, app_nth2, Nat.sub_diag; auto.
Qed.

Lemma count_gen w : w = 64%nat -> forall bs pre n,
  fold_left (fun n c =>
    fold_left (fun n j => if negb (N.land c (N.shiftl 1 (N.of_nat j)) =? 0) then n + 1 else n)
              (seq 0 w) n) bs n =
  n + N.of_nat (length (filter (fun e => bshas (pre ++ bs) (N.of_nat e)) (seq (w * length pre) (w * length bs)))).
Proof.
  intros Hw. induction bs as [|c bs IH]; intros pre n.
  - cbn [fold_left length]. rewrite Nat.mul_0_r. cbn [seq filter length]. lia.
  - cbn [fold_left]. rewrite (IH (pre ++ [c])). rewrite count_inner.
    rewrite <- app_assoc; cbn [app]. rewrite app_length; cbn [length].
    replace (w * S (length bs))%nat with (w + w * length bs)%nat by lia.
    rewrite seq_app, filter_app, app_length.
    replace (w * (length pre + 1))%nat with (w * length pre + w)%nat by lia.
    rewrite (chunk_count pre c bs w Hw). lia.
Qed.

Lemma count_elems bs : bscount bs = N.of_nat (length (elems bs)).
Proof.
  unfold bscount. rewrite (count_gen 64 eq_refl bs [] 0). unfold elems. rewrite filter_map_len.
  cbn [app]. change (length (@nil N)) with 0%nat. rewrite Nat.mul_0_r. apply N.add_0_l.
Qed.

Lemma elems_spec bs x : In x (elems bs) <-> bshas bs x = true.
Proof.
  unfold elems. rewrite filter_In, in_map_iff. split; [tauto|].
  intros H; split; auto. exists (N.to_nat x). split; [lia|].
  apply in_seq. pose proof (has_lt_max _ _ H). unfold nchunks in *. lia.
Qed.

Lemma elems_nodup bs : NoDup (elems bs).
Proof.
  unfold elems. apply NoDup_filter. apply FinFun.Injective_map_NoDup; [|apply seq_NoDup].
  intros a b; lia.
Qed.

Lemma sorted_nodup l : StronglySorted N.lt l -> NoDup l.
Proof.
  induction 1 as [|x l S IH F]; constructor; auto.
  intros Hin. rewrite Forall_forall in F. specialize (F _ Hin). lia.
Qed.

Lemma iterate_main os r :
  let b := run os r in
  exists l, bsloop (S (N.to_nat (bsmax b))) b 0 = Some l /\ StronglySorted N.lt l /\
    (forall x, In x l <-> spec_run os r x) /\ bscount b = N.of_nat (length l).
Proof.
  cbv zeta. pose proof (run_R os) as [Hw HR].
  destruct (@bsloop_spec (run os r) (Hw r) (S (N.to_nat (bsmax (run os r)))) 0) as (l & E & S & I).
  { unfold bsmax; lia. }
  exists l. repeat split; auto.
  - intros Hx; apply HR, I; auto.
  - intros Hx; apply I; split; [lia|]. now apply HR.
  - rewrite count_elems. f_equal. apply Permutation_length, NoDup_Permutation; auto using elems_nodup, sorted_nodup.
    intros x. rewrite elems_spec, I. split; [intros; split; [lia|auto]|tauto].
Qed.

Lemma run_eq os r s : bseq (Some (run os r)) (Some (run os s)) = true <-> (forall x, spec_run os r x <-> spec_run os s x).
Proof.
  pose proof (run_R os) as [Hw HR]. rewrite eq_spec by auto. split.
  - intros H x. rewrite <- !HR, H. reflexivity.
  - intros H e. specialize (H e). rewrite <- !HR in H.
    destruct (bshas (run os r) e), (bshas (run os s) e); auto; destruct H as [H1 H2];
      [symmetry; apply H1; reflexivity|apply H2; reflexivity].
Qed.

Lemma run_sub os r s : bsissubset (run os r) (run os s) = true <-> (forall x, spec_run os r x -> spec_run os s x).
Proof.
  pose proof (run_R os) as [Hw HR]. rewrite subset_spec by auto. split.
  - intros H x. rewrite <- !HR. auto.
  - intros H e. rewrite !HR. auto.
Qed.

Lemma run_empty os r : bsisempty (run os r) = true <-> (forall x, ~ spec_run os r x).
Proof.
  pose proof (run_R os) as [Hw HR]. rewrite empty_spec by auto. split.
  - intros H x Hx. apply HR in Hx. rewrite H in Hx. discriminate.
  - intros H e. destruct (bshas (run os r) e) eqn:E; auto. apply HR in E. destruct (H _ E).
Qed.
