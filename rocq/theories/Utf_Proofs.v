From Verif Require Import Base Utf_Model Utf_Spec.
Open Scope N_scope.
Ltac Zify.zify_post_hook ::= Z.div_mod_to_equations.

(* facts about all numbers below a small bound *)
Lemma below_all (f : N -> bool) (k : nat) : forallb f (map N.of_nat (seq 0 k)) = true -> forall x, x < N.of_nat k -> f x = true.
Proof.
  intros H x Hx. rewrite forallb_forall in H. apply H. apply in_map_iff. exists (N.to_nat x). split; [lia|]. apply in_seq. lia.
Qed.

Lemma land_3f c : N.land c 0x3f = c mod 64.
Proof. change 0x3f with (N.ones 6). rewrite N.land_ones. reflexivity. Qed.
Lemma land_ff c : N.land c 0xff = c mod 256.
Proof. change 0xff with (N.ones 8). rewrite N.land_ones. reflexivity. Qed.
Lemma shiftr6 c : N.shiftr c 6 = c / 64.
Proof. rewrite N.shiftr_div_pow2. reflexivity. Qed.
Lemma lor_80 x : x < 64 -> N.lor x 0x80 = 0x80 + x.
Proof. intros H. apply N.eqb_eq. revert x H. apply (below_all (fun x => N.lor x 128 =? 128 + x) 64). vm_compute; reflexivity. Qed.

Lemma charlen_utf8 c : c < 0x200000 -> charlen c = length (utf8 c).
Proof. intros H. unfold charlen, utf8. repeat match goal with |- context [?a <? ?b] => destruct (N.ltb_spec a b) end; try reflexivity; lia. Qed.
Lemma utf8_nonempty c : (0 < length (utf8 c))%nat.
Proof. unfold utf8. repeat match goal with |- context [?a <? ?b] => destruct (N.ltb_spec a b) end; cbn; lia. Qed.

Lemma cont x : N.lor (N.land x 0x3f) 0x80 = 0x80 + x mod 64.
Proof. rewrite land_3f. apply lor_80. lia. Qed.

Lemma mark2 x : x < 32 -> N.land (N.lor x 0xc0) 0xff = 0xc0 + x.
Proof. intros H. apply N.eqb_eq. revert x H. apply (below_all (fun x => N.land (N.lor x 192) 255 =? 192 + x) 32). vm_compute; reflexivity. Qed.
Lemma mark3 x : x < 16 -> N.land (N.lor x 0xe0) 0xff = 0xe0 + x.
Proof. intros H. apply N.eqb_eq. revert x H. apply (below_all (fun x => N.land (N.lor x 224) 255 =? 224 + x) 16). vm_compute; reflexivity. Qed.
Lemma mark4 x : x < 8 -> N.land (N.lor x 0xf0) 0xff = 0xf0 + x.
Proof. intros H. apply N.eqb_eq. revert x H. apply (below_all (fun x => N.land (N.lor x 240) 255 =? 240 + x) 8). vm_compute; reflexivity. Qed.

Lemma encode_spec buf c : c < 0x200000 -> (charlen c <= length buf)%nat ->
  encode buf c = (Z.of_nat (length (utf8 c)), utf8 c ++ skipn (length (utf8 c)) buf).
Proof.
  intros Hc Hl. unfold encode. rewrite <- (charlen_utf8 c Hc). destruct (Nat.ltb_spec (length buf) (charlen c)); [lia|]. clear H.
  unfold charlen, utf8 in *.
  destruct (N.ltb_spec c 0x80).
  { destruct buf as [|b0 buf]; cbn [length] in *; [lia|]. cbn [Nat.eqb Nat.sub encode_loop upd skipn app].
    change (1 =? 1)%nat with true. cbv iota. rewrite N.lor_0_r, land_ff, N.mod_small by lia. reflexivity. }
  destruct (N.ltb_spec c 0x800).
  { destruct buf as [|b0 [|b1 buf]]; cbn [length] in *; try lia.
    change (2 =? 1)%nat with false. cbn [Nat.sub encode_loop upd skipn app]. rewrite cont, shiftr6.
    change (N.lxor (N.shiftl 1 (N.of_nat 6) - 1) 0xff) with 0xc0. rewrite mark2 by lia. reflexivity. }
  destruct (N.ltb_spec c 0x10000).
  { destruct buf as [|b0 [|b1 [|b2 buf]]]; cbn [length] in *; try lia.
    change (3 =? 1)%nat with false. cbn [Nat.sub encode_loop upd skipn app]. rewrite !cont, !shiftr6.
    change (N.lxor (N.shiftl 1 (N.of_nat 5) - 1) 0xff) with 0xe0. rewrite N.div_div by lia. rewrite mark3 by lia. reflexivity. }
  destruct (N.ltb_spec c 0x200000); [|lia].
  destruct buf as [|b0 [|b1 [|b2 [|b3 buf]]]]; cbn [length] in *; try lia.
  change (4 =? 1)%nat with false. cbn [Nat.sub encode_loop upd skipn app]. rewrite !cont, !shiftr6.
  change (N.lxor (N.shiftl 1 (N.of_nat 4) - 1) 0xff) with 0xf0. rewrite !N.div_div by lia. rewrite mark4 by lia. reflexivity.
Qed.

Lemma encode_short buf c : (length buf < charlen c)%nat -> encode buf c = ((-1)%Z, buf).
Proof. intros H. unfold encode. destruct (Nat.ltb_spec (length buf) (charlen c)); [reflexivity|lia]. Qed.

(* decoding *)
Lemma lead1 c : c < 128 -> lead c = Some 1%nat /\ N.land c 0x7f = c.
Proof.
  intros H. split.
  - assert (E : (N.land c 128 =? 0) = true) by (revert c H; apply (below_all (fun c => N.land c 128 =? 0) 128); vm_compute; reflexivity).
    unfold lead. now rewrite E.
  - apply N.eqb_eq. revert c H. apply (below_all (fun c => N.land c 127 =? c) 128). vm_compute; reflexivity.
Qed.
Definition leadis (c : N) (n : nat) : bool := match lead c with Some m => (m =? n)%nat | None => false end.
Lemma leadis_true c n : leadis c n = true -> lead c = Some n.
Proof. unfold leadis. destruct (lead c) as [m|]; [|discriminate]. intros H. apply Nat.eqb_eq in H. now subst. Qed.
Lemma lead2 x : x < 32 -> lead (0xc0 + x) = Some 2%nat /\ N.land (0xc0 + x) 0x3f = x.
Proof.
  intros H. split; [apply leadis_true|apply N.eqb_eq]; revert x H.
  - apply (below_all (fun x => leadis (192 + x) 2) 32). vm_compute; reflexivity.
  - apply (below_all (fun x => N.land (192 + x) 63 =? x) 32). vm_compute; reflexivity.
Qed.
Lemma lead3 x : x < 16 -> lead (0xe0 + x) = Some 3%nat /\ N.land (0xe0 + x) 0x1f = x.
Proof.
  intros H. split; [apply leadis_true|apply N.eqb_eq]; revert x H.
  - apply (below_all (fun x => leadis (224 + x) 3) 16). vm_compute; reflexivity.
  - apply (below_all (fun x => N.land (224 + x) 31 =? x) 16). vm_compute; reflexivity.
Qed.
Lemma lead4 x : x < 8 -> lead (0xf0 + x) = Some 4%nat /\ N.land (0xf0 + x) 0xf = x.
Proof.
  intros H. split; [apply leadis_true|apply N.eqb_eq]; revert x H.
  - apply (below_all (fun x => leadis (240 + x) 4) 8). vm_compute; reflexivity.
  - apply (below_all (fun x => N.land (240 + x) 15 =? x) 8). vm_compute; reflexivity.
Qed.
Lemma uncont x : x < 64 -> N.land (0x80 + x) 0x3f = x.
Proof. intros H. rewrite land_3f. lia. Qed.
Lemma shift_or a b : b < 64 -> N.lor (N.shiftl a 6) b = 64 * a + b.
Proof.
  intros H. assert (E : N.land (N.shiftl a 6) b = 0).
  { apply N.bits_inj. intros n. rewrite N.land_spec, N.bits_0. destruct (N.lt_ge_cases n 6) as [Hn|Hn].
    - rewrite N.shiftl_spec_low by auto. reflexivity.
    - assert (N.testbit b n = false) as ->; [|apply andb_false_r].
      rewrite <- (N.mod_small b (2 ^ 6)) by exact H. now apply N.mod_pow2_bits_high. }
  rewrite <- N.lxor_lor by exact E. rewrite <- N.add_nocarry_lxor by exact E.
  rewrite N.shiftl_mul_pow2. change (2 ^ 6) with 64. lia.
Qed.

Lemma charstep_utf8 c rest : c < 0x200000 -> charstep (utf8 c ++ rest) = (c, rest).
Proof.
  intros Hc. unfold utf8.
  destruct (N.ltb_spec c 0x80).
  { cbn [app]. unfold charstep. destruct (lead1 c H) as [-> L]. cbn [length]. destruct (_ <? 1)%nat eqn:Q; [apply Nat.ltb_lt in Q; lia|].
    change (N.shiftl 1 (N.of_nat (8 - 1)) - 1) with 0x7f. cbn [Nat.sub firstn step_loop skipn]. now rewrite L. }
  destruct (N.ltb_spec c 0x800).
  { cbn [app]. unfold charstep. destruct (lead2 (c / 64)) as [-> L]; [lia|]. cbn [length]. destruct (_ <? 2)%nat eqn:Q; [apply Nat.ltb_lt in Q; lia|].
    change (N.shiftl 1 (N.of_nat (8 - 2)) - 1) with 0x3f. cbn [Nat.sub firstn step_loop skipn].
    rewrite L, uncont by lia. rewrite shift_or by lia. f_equal.  lia. }
  destruct (N.ltb_spec c 0x10000).
  { cbn [app]. unfold charstep. destruct (lead3 (c / 4096)) as [-> L]; [lia|]. cbn [length]. destruct (_ <? 3)%nat eqn:Q; [apply Nat.ltb_lt in Q; lia|].
    change (N.shiftl 1 (N.of_nat (8 - 3)) - 1) with 0x1f. cbn [Nat.sub firstn step_loop skipn].
    rewrite L, !uncont by lia. rewrite !shift_or by lia. f_equal. lia. }
  cbn [app]. unfold charstep. destruct (lead4 (c / 262144)) as [-> L]; [lia|]. cbn [length]. destruct (_ <? 4)%nat eqn:Q; [apply Nat.ltb_lt in Q; lia|].
  change (N.shiftl 1 (N.of_nat (8 - 4)) - 1) with 0xf. cbn [Nat.sub firstn step_loop skipn].
  rewrite L, !uncont by lia. rewrite !shift_or by lia. f_equal. lia.
Qed.

(* progress, and how much is consumed *)
Lemma lead_range c n : lead c = Some n -> (1 <= n <= 4)%nat.
Proof. unfold lead. repeat match goal with |- context [if ?b then _ else _] => destruct b end; intros H; inversion H; lia. Qed.

Lemma step_loop_bound tail : forall chr, step_loop chr tail < (chr + 1) * 64 ^ N.of_nat (length tail).
Proof.
  induction tail as [|t tail IH]; intros chr; cbn [step_loop length]; [cbn; lia|].
  eapply N.lt_le_trans; [apply IH|].
  rewrite land_3f, shift_or by lia. rewrite Nat2N.inj_succ, N.pow_succ_r' .
  rewrite N.mul_assoc. apply N.mul_le_mono_r. pose proof (N.mod_lt t 64 ltac:(lia)). lia.
Qed.

Lemma land_mask_bound a k : N.land a (N.ones k) < 2 ^ k.
Proof. rewrite N.land_ones. apply N.mod_lt. apply N.pow_nonzero. lia. Qed.

Lemma lead_mask c n : c < 256 -> lead c = Some n ->
  N.land c (N.shiftl 1 (N.of_nat (8 - n)) - 1) + 1 <= (match n with 1%nat => 128 | 2%nat => 32 | 3%nat => 16 | _ => 8 end).
Proof.
  intros Hc Hl.
  assert (T : forall c, c < 256 -> (match lead c with Some n => N.land c (N.shiftl 1 (N.of_nat (8 - n)) - 1) + 1 <=? (match n with 1%nat => 128 | 2%nat => 32 | 3%nat => 16 | _ => 8 end) | None => true end) = true).
  { apply (below_all _ 256). vm_compute; reflexivity. }
  specialize (T c Hc). rewrite Hl in T. now apply N.leb_le.
Qed.

Lemma lead_mask0 c n : lead c = Some n -> (n = 1%nat -> N.land c (N.shiftl 1 (N.of_nat (8 - n)) - 1) < 128).
Proof. intros _ ->. change (N.shiftl 1 (N.of_nat (8 - 1)) - 1) with (N.ones 7). apply land_mask_bound. Qed.

Lemma charstep_progress str : str <> [] ->
  exists n, (1 <= n <= length str)%nat /\ snd (charstep str) = skipn n str /\
    (Forall isbyte str -> fst (charstep str) = Badchar /\ n = 1%nat \/ fst (charstep str) < 0x200000 /\ (charlen (fst (charstep str)) <= n)%nat).
Proof.
  destruct str as [|c tl]; [congruence|]. intros _. unfold charstep.
  destruct (lead c) as [n|] eqn:L; [|exists 1%nat; cbn; repeat split; auto; lia].
  destruct (Nat.ltb_spec (length (c :: tl)) n) as [H|H]; [exists 1%nat; cbn; repeat split; auto; lia|].
  exists n. pose proof (lead_range c n L) as R. split; [lia|]. split; [reflexivity|]. intros Hb. right. cbn [fst].
  set (x := step_loop _ _).
  assert (B : x < (match n with 1%nat => 0x80 | 2%nat => 0x800 | 3%nat => 0x10000 | _ => 0x200000 end)).
  { unfold x. eapply N.lt_le_trans; [apply step_loop_bound|].
    rewrite firstn_length, Nat.min_l by (cbn [length] in H; lia).
    inversion Hb as [|? ? Hc _]; subst. pose proof (lead_mask c n Hc L) as M.
    etransitivity; [apply N.mul_le_mono_r, M|]. assert (n = 1 \/ n = 2 \/ n = 3 \/ n = 4)%nat as [->|[->|[->| ->]]] by lia; vm_compute; discriminate. }
  clearbody x. unfold charlen. assert (n = 1 \/ n = 2 \/ n = 3 \/ n = 4)%nat as [->|[->|[->| ->]]] by lia; cbv iota in B;
  repeat match goal with |- context [?a <? ?b] => destruct (N.ltb_spec a b) end; split; lia.
Qed.

Lemma bychar_terminates fuel : forall str, (length str < fuel)%nat -> exists cs, bychar fuel str = Some cs.
Proof.
  induction fuel as [|fuel IH]; intros str H; [lia|]. cbn [bychar]. destruct str as [|b str]; [eauto|].
  destruct (charstep_progress (b :: str)) as (n & Hn & E & _); [congruence|].
  destruct (charstep (b :: str)) as [c rest] eqn:Ec. cbn [snd] in E. subst rest.
  destruct (IH (skipn n (b :: str))) as [cs ->]; [rewrite skipn_length; lia|]. cbn. eauto.
Qed.
Lemma bychar_utf8 cs : forall fuel, (length (utf8_string cs) < fuel)%nat -> Forall (fun c => c < 0x200000) cs -> bychar fuel (utf8_string cs) = Some cs.
Proof.
  induction cs as [|c cs IH]; intros [|fuel] Hf Hc; try lia; [reflexivity|].
  unfold utf8_string in *. cbn [map concat] in *. inversion Hc as [|? ? H1 H2]; subst.
  pose proof (utf8_nonempty c). rewrite app_length in Hf. cbn [bychar].
  rewrite (charstep_utf8 c) by auto.
  destruct (utf8 c ++ concat (map utf8 cs)) eqn:E; [apply (f_equal (@length N)) in E; rewrite app_length in E; cbn in E; lia|].
  rewrite IH by (auto; lia). reflexivity.
Qed.

Lemma decode_skip pre c rest : c < 0x200000 -> decode (skipn (length pre) (pre ++ utf8 c ++ rest)) = c.
Proof. intros H. rewrite skipn_app, skipn_all, Nat.sub_diag. cbn [skipn app]. unfold decode. now rewrite charstep_utf8. Qed.

Lemma bycharoff_utf8 cs : forall fuel pre, (length (utf8_string cs) < fuel)%nat -> Forall (fun c => c < 0x200000) cs ->
  bycharoff fuel (pre ++ utf8_string cs) (length pre) = Done (with_ends (length pre) cs).
Proof.
  induction cs as [|c cs IH]; intros [|fuel] pre Hf Hc; try lia.
  - cbn [bycharoff]. unfold utf8_string. cbn. rewrite app_nil_r, Nat.eqb_refl. reflexivity.
  - inversion Hc as [|? ? H1 H2]; subst. unfold utf8_string in *. cbn [map concat] in *. rewrite app_length in Hf. pose proof (utf8_nonempty c).
    cbn [bycharoff]. rewrite !app_length. destruct (Nat.eqb_spec (length pre) (length pre + (length (utf8 c) + length (concat (map utf8 cs))))); [lia|].
    destruct (Nat.ltb_spec (length pre + (length (utf8 c) + length (concat (map utf8 cs)))) (length pre)); [lia|].
    rewrite decode_skip by auto. rewrite charlen_utf8 by auto. cbn [with_ends].
    specialize (IH fuel (pre ++ utf8 c) ltac:(lia) H2). rewrite app_length, <- app_assoc in IH. rewrite IH. reflexivity.
Qed.

Lemma Forall_skipn {A} (P : A -> Prop) n l : Forall P l -> Forall P (skipn n l).
Proof. revert l; induction n as [|n IH]; intros l H; cbn; auto. destruct l; auto. inversion H; auto. Qed.

Lemma charlen_pos c : (1 <= charlen c)%nat.
Proof. unfold charlen. repeat match goal with |- context [?a <? ?b] => destruct (N.ltb_spec a b) end; lia. Qed.

Lemma bycharoff_safe fuel : forall str idx, Forall isbyte str -> (idx <= length str)%nat -> (length str - idx < fuel)%nat ->
  exists l, bycharoff fuel str idx = Done l.
Proof.
  induction fuel as [|fuel IH]; intros str idx Hb Hi Hf; [lia|]. cbn [bycharoff].
  destruct (Nat.eqb_spec idx (length str)); [eauto|]. destruct (Nat.ltb_spec (length str) idx); [lia|].
  assert (Hlen : length (skipn idx str) = (length str - idx)%nat) by apply skipn_length.
  destruct (charstep_progress (skipn idx str)) as (k & Hk & _ & Hc); [intros E; rewrite E in Hlen; cbn in Hlen; lia|].
  specialize (Hc (Forall_skipn _ _ _ Hb)). unfold decode. set (c := fst _) in *.
  assert (Hcl : (charlen c <= k)%nat) by (destruct Hc as [[-> ->]|[_ Hc]]; [reflexivity|auto]).
  pose proof (charlen_pos c). destruct (IH str (idx + charlen c)%nat) as [l ->]; auto; try lia. cbn. eauto.
Qed.

Section G.
Context (cellwidth : N -> Z).
Lemma grapheme_loop_spec fuel : forall rest len, (length rest < fuel)%nat -> Forall isbyte rest ->
  exists n, grapheme_loop cellwidth fuel rest len = Some n /\ (n <= len + length rest)%nat /\ (0 < len + length rest -> 0 < n)%nat.
Proof.
  induction fuel as [|fuel IH]; intros rest len Hf Hb; [lia|]. cbn [grapheme_loop].
  destruct rest as [|b rest]; [exists len; cbn; split; auto; lia|].
  destruct (charstep_progress (b :: rest)) as (k & Hk & E & Hc); [congruence|]. specialize (Hc Hb).
  destruct (charstep (b :: rest)) as [c r]. cbn [fst snd] in *. subst r.
  destruct (control c). { exists (if (len =? 0)%nat then 1%nat else len). split; auto. destruct (Nat.eqb_spec len 0); cbn [length] in *; lia. }
  destruct (((0 <? cellwidth c)%Z || (c =? Badchar)) && (0 <? len)%nat) eqn:E1. { exists len. split; auto. lia. }
  destruct (N.eqb_spec c Badchar). { exists 1%nat. split; auto. cbn [length] in *; lia. }
  destruct Hc as [[? _]|[_ Hc]]; [congruence|]. pose proof (charlen_pos c).
  destruct (IH (skipn k (b :: rest)) (len + charlen c)%nat) as (n' & -> & H1 & H2).
  - rewrite skipn_length. lia.
  - now apply Forall_skipn.
  - exists n'. rewrite skipn_length in *. split; auto. lia.
Qed.
End G.
