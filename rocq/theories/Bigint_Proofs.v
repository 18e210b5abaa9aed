From Verif Require Import Base ListX Word Endian_Model Endian_Proofs Sort_Model Bigint_Model Bigint_Spec.
From Coq Require Import Zpow_facts.
Open Scope Z_scope.

(* ---------- machine words ---------- *)
Lemma c32 v : cast uint32 v = v mod 2 ^ 32. Proof. reflexivity. Qed.
Lemma c64 v : 0 <= v < 2 ^ 64 -> cast uint64 v = v. Proof. apply (uwrap_small 64). Qed.
Lemma i64 v : - 2 ^ 63 <= v < 2 ^ 63 -> cast int64 v = v. Proof. intros H. apply (swrap_small 64); lia. Qed.
Lemma i64u v : - 2 ^ 63 <= v < 2 ^ 63 -> cast int64 (cast uint64 v) = v.
Proof. intros H. unfold cast; cbn [sgn int64 uint64 w]. rewrite swrap_uwrap by lia. apply (swrap_small 64); lia. Qed.
Lemma limb32 v : limb (cast uint32 v). Proof. apply (uwrap_range 32); lia. Qed.
Lemma Base_eq : Base = 2 ^ 32. Proof. reflexivity. Qed.

(* ---------- values of digit lists ---------- *)
Lemma val_app a b : val (a ++ b) = val a + (2 ^ 32) ^ Z.of_nat (length a) * val b.
Proof.
  induction a as [|d a IH]; cbn [app val length]; [change (Z.of_nat 0) with 0; rewrite Z.pow_0_r; lia|]. rewrite IH, Nat2Z.inj_succ, Z.pow_succ_r by lia. lia.
Qed.
Lemma pB_pos n : 0 < (2 ^ 32) ^ Z.of_nat n. Proof. apply Z.pow_pos_nonneg; lia. Qed.
Lemma val_range l : Forall limb l -> 0 <= val l < (2 ^ 32) ^ Z.of_nat (length l).
Proof.
  induction 1 as [|d l H F IH]; cbn [val length]; [change (Z.of_nat 0) with 0; rewrite Z.pow_0_r; lia|]. rewrite Nat2Z.inj_succ, Z.pow_succ_r by lia. unfold limb in H. lia.
Qed.
Lemma val_zeros n : val (repeat 0 n) = 0. Proof. induction n; cbn [repeat val]; lia. Qed.
Lemma val_zgrow l n : val (zgrow l n) = val l.
Proof. unfold zgrow. rewrite val_app, val_zeros. lia. Qed.
Lemma limb_zeros n : Forall limb (repeat 0 n). Proof. induction n; constructor; auto. unfold limb. lia. Qed.
Lemma limb_zgrow l n : Forall limb l -> Forall limb (zgrow l n).
Proof. intros H. apply Forall_app. split; auto. apply limb_zeros. Qed.
Lemma zgrow_length l n : (length l <= n)%nat -> length (zgrow l n) = n.
Proof. intros H. unfold zgrow. rewrite app_length, repeat_length. lia. Qed.

(* trim *)
Lemma trimdig_val l : val (trimdig l) = val l.
Proof.
  induction l as [|d l IH]; [reflexivity|]. cbn [trimdig val]. rewrite <- IH. destruct (trimdig l) as [|e t]; [|reflexivity].
  destruct (Z.eqb_spec d 0); cbn [val]; lia.
Qed.
Lemma trimdig_limb l : Forall limb l -> Forall limb (trimdig l).
Proof.
  induction 1 as [|d l H F IH]; cbn [trimdig]; auto. destruct (trimdig l) as [|e t]; [|constructor; auto].
  destruct (d =? 0); auto.
Qed.
Lemma trimdig_last l : trimdig l <> [] -> last (trimdig l) 0 <> 0.
Proof.
  induction l as [|d l IH]; cbn [trimdig]; [congruence|]. destruct (trimdig l) as [|e t].
  - destruct (Z.eqb_spec d 0); [congruence|]. cbn. auto.
  - intros _. change (last (e :: t) 0 <> 0). apply IH. discriminate.
Qed.
Lemma trimdig_id l : l = [] \/ last l 0 <> 0 -> trimdig l = l.
Proof.
  intros [->|H]; [reflexivity|]. induction l as [|d l IH]; [reflexivity|]. cbn [trimdig].
  destruct l as [|e l]; [cbn in *; destruct (Z.eqb_spec d 0); congruence|]. rewrite IH by exact H. reflexivity.
Qed.
Lemma trimdig_length l : (length (trimdig l) <= length l)%nat.
Proof.
  induction l as [|d l IH]; [auto|]. cbn [trimdig length]. destruct (trimdig l); [destruct (d =? 0)|]; cbn [length] in *; lia.
Qed.
Lemma trim_spec a : Forall limb (dig a) -> sign a = 1 \/ sign a = -1 \/ val (dig a) = 0 ->
  normal (trim a) /\ number (trim a) = number a.
Proof.
  intros F S. unfold trim, number, normal. cbn [dig sign]. pose proof (trimdig_val (dig a)) as V. pose proof (trimdig_last (dig a)) as L.
  pose proof (trimdig_limb _ F) as F'. destruct (trimdig (dig a)) as [|d t]; cbn [val] in *.
  - split; [split; auto|]. nia.
  - assert (last (d :: t) 0 <> 0) by (apply L; discriminate).
    assert (V0 : val (dig a) <> 0).
    { intros E. rewrite E in V. assert (Z0 : forall t, Forall limb t -> val t = 0 -> forall e, last t e = 0 \/ t = []).
      { clear. induction 1 as [|x t Hx Ht IH]; intros V e; auto. left. cbn [val] in V. pose proof (val_range t Ht). unfold limb in Hx.
        assert (val t = 0) by lia. assert (x = 0) by lia. subst. cbn [last]. destruct (IH H0 e) as [E| ->]; [|reflexivity]. destruct t; auto. }
      destruct (Z0 _ F' ltac:(cbn [val]; lia) 0) as [?|?]; congruence. }
    split; [split; auto; right; split; [discriminate|split; auto; tauto]|]. f_equal. lia.
Qed.
Lemma trim_normal a : normal a -> trim a = a.
Proof.
  intros [F H]. unfold trim. rewrite trimdig_id by (destruct H as [[-> _]|[_ [H _]]]; auto). destruct a as [d s]; cbn in *.
  destruct H as [[-> ->]|[H _]]; auto. destruct d; congruence.
Qed.
Lemma normal_low l : Forall limb l -> l <> [] -> last l 0 <> 0 -> (2 ^ 32) ^ Z.of_nat (length l - 1) <= val l.
Proof.
  intros F N L. destruct (exists_last N) as (p & d & ->). rewrite last_last in L. apply Forall_app in F as [F1 F2]. inversion F2; subst.
  rewrite app_length, val_app. cbn [length val]. pose proof (val_range p F1). replace (length p + 1 - 1)%nat with (length p) by lia.
  unfold limb in *. pose proof (pB_pos (length p)). nia.
Qed.
Lemma normal_val_pos a : normal a -> dig a <> [] -> 0 < val (dig a).
Proof.
  intros [F [[E _]|[N [L _]]]] H; [congruence|]. pose proof (normal_low _ F N L). pose proof (pB_pos (length (dig a) - 1)). lia.
Qed.
Lemma normal_sign a : normal a -> sign a = Z.sgn (number a).
Proof.
  intros H. unfold number. destruct H as [F [[E S]|[N [L S]]]]; [rewrite E, S; reflexivity|].
  assert (0 < val (dig a)) by (apply normal_val_pos; auto; split; auto). destruct S as [->| ->].
  - rewrite Z.mul_1_l. symmetry. apply Z.sgn_pos. auto.
  - symmetry. apply Z.sgn_neg. lia.
Qed.
Lemma normal_abs a : normal a -> val (dig a) = Z.abs (number a).
Proof.
  intros H. pose proof (val_range _ (proj1 H)). unfold number. destruct H as [F [[E S]|[N [L [S|S]]]]]; rewrite ?E, S; cbn [val] in *; lia.
Qed.

(* ---------- comparison ---------- *)
Lemma cmpdig_spec a : forall b, length a = length b -> Forall limb a -> Forall limb b ->
  match cmpdig a b with Some d => d <> 0 /\ Z.sgn d = Z.sgn (val a - val b) | None => a = b end.
Proof.
  induction a as [|x a IH]; intros [|y b] L Fa Fb; try discriminate; [reflexivity|]. cbn [cmpdig]. inversion Fa; inversion Fb; subst.
  specialize (IH b ltac:(auto) ltac:(auto) ltac:(auto)). cbn [val]. destruct (cmpdig a b) as [d|].
  - destruct IH as [D E]. split; auto. rewrite E. unfold limb in *. destruct (Z.lt_trichotomy (val a) (val b)) as [H|[H|H]].
    + rewrite !Z.sgn_neg by lia. reflexivity.
    + rewrite H, Z.sub_diag in E. cbn in E. destruct d; cbn in E; congruence.
    + rewrite !Z.sgn_pos by lia. reflexivity.
  - subst b. destruct (Z.eqb_spec x y); [congruence|]. split; [lia|]. f_equal. lia.
Qed.
Lemma cmpabs_spec a b : normal a -> normal b ->
  match bigcmpabs a b with Before => val (dig a) < val (dig b) | Equal => dig a = dig b | After => val (dig b) < val (dig a) end.
Proof.
  intros Na Nb. unfold bigcmpabs.
  assert (LT : forall a b, normal a -> normal b -> (length (dig a) < length (dig b))%nat -> val (dig a) < val (dig b)).
  { clear. intros a b Na Nb H. pose proof (val_range _ (proj1 Na)). destruct Nb as [Fb [[E _]|[N [L _]]]]; [rewrite E in H; cbn in H; lia|].
    pose proof (normal_low _ Fb N L). assert ((2 ^ 32) ^ Z.of_nat (length (dig a)) <= (2 ^ 32) ^ Z.of_nat (length (dig b) - 1)) by (apply Z.pow_le_mono_r; lia). lia. }
  destruct (Nat.ltb_spec (length (dig a)) (length (dig b))); [auto|].
  destruct (Nat.ltb_spec (length (dig b)) (length (dig a))); [auto|].
  pose proof (cmpdig_spec (dig a) (dig b) ltac:(lia) (proj1 Na) (proj1 Nb)) as C. destruct (cmpdig (dig a) (dig b)) as [d|]; [|auto].
  destruct C as [D C]. unfold signedorder. destruct (Z.ltb_spec d 0); [|destruct (Z.eqb_spec d 0); [congruence|]].
  - rewrite Z.sgn_neg in C by lia. destruct (Z.lt_trichotomy (val (dig a)) (val (dig b))) as [G|[G|G]]; auto.
    + rewrite G, Z.sub_diag in C. discriminate.
    + rewrite Z.sgn_pos in C by lia. discriminate.
  - rewrite Z.sgn_pos in C by lia. destruct (Z.lt_trichotomy (val (dig a)) (val (dig b))) as [G|[G|G]]; auto.
    + rewrite Z.sgn_neg in C by lia. discriminate.
    + rewrite G, Z.sub_diag in C. discriminate.
Qed.
Lemma cmp_spec a b : normal a -> normal b ->
  match bigcmp a b with Before => number a < number b | Equal => a = b | After => number b < number a end.
Proof.
  intros Na Nb. pose proof (cmpabs_spec a b Na Nb) as C. unfold bigcmp.
  pose proof (val_range _ (proj1 Na)) as Ra. pose proof (val_range _ (proj1 Nb)) as Rb.
  pose proof (normal_val_pos a Na) as Pa. pose proof (normal_val_pos b Nb) as Pb.
  pose proof Na as [_ Sa]. pose proof Nb as [_ Sb].
  assert (X : sign a = 0 /\ dig a = [] \/ (sign a = 1 \/ sign a = -1) /\ 0 < val (dig a)) by (destruct Sa as [[? ?]|[? [? ?]]]; auto).
  assert (Y : sign b = 0 /\ dig b = [] \/ (sign b = 1 \/ sign b = -1) /\ 0 < val (dig b)) by (destruct Sb as [[? ?]|[? [? ?]]]; auto).
  clear Sa Sb Pa Pb. unfold number in *.
  destruct (Z.ltb_spec (sign a) (sign b)).
  { destruct X as [[S Ea]|[[S|S] Xp]], Y as [[T Eb]|[[T|T] Yp]]; rewrite S, T in *; rewrite ?Ea, ?Eb in *; cbn [val] in *; lia. }
  destruct (Z.ltb_spec (sign b) (sign a)).
  { destruct X as [[S Ea]|[[S|S] Xp]], Y as [[T Eb]|[[T|T] Yp]]; rewrite S, T in *; rewrite ?Ea, ?Eb in *; cbn [val] in *; lia. }
  assert (E : sign a = sign b) by lia. unfold bigcmpabs in C.
  assert (Z0 : sign a = 0 -> a = b).
  { intros S. destruct X as [[_ Ea]|[[?|?] _]]; [|lia|lia]. destruct Y as [[_ Eb]|[[?|?] _]]; [|lia|lia]. destruct a, b; cbn in *; congruence. }
  assert (D0 : dig a = dig b -> a = b) by (destruct a, b; cbn in *; congruence).
  clear X Y. destruct (length (dig a) <? length (dig b))%nat eqn:Q1.
  { unfold signedorder. rewrite E in *. destruct (Z.ltb_spec (- sign b) 0); [nia|]. destruct (Z.eqb_spec (- sign b) 0); [apply Z0; lia|nia]. }
  destruct (length (dig b) <? length (dig a))%nat eqn:Q2.
  { unfold signedorder. rewrite E in *. destruct (Z.ltb_spec (sign b) 0); [nia|]. destruct (Z.eqb_spec (sign b) 0); [apply Z0; lia|nia]. }
  destruct (cmpdig (dig a) (dig b)) as [d|]; [|auto].
  rewrite E in *. unfold signedorder in *. destruct (Z.ltb_spec d 0); [|destruct (Z.eqb_spec d 0)].
  - destruct (Z.ltb_spec (sign b * d) 0); [nia|]. destruct (Z.eqb_spec (sign b * d) 0); [apply Z0; nia|nia].
  - subst d. rewrite Z.mul_0_r. cbn. auto.
  - destruct (Z.ltb_spec (sign b * d) 0); [nia|]. destruct (Z.eqb_spec (sign b * d) 0); [apply Z0; nia|nia].
Qed.
Lemma number_inj a b : normal a -> normal b -> number a = number b -> a = b.
Proof. intros Na Nb E. pose proof (cmp_spec a b Na Nb). destruct (bigcmp a b); auto; lia. Qed.
Lemma combine_eq (a : list Z) : forall b, length a = length b -> forallb (fun p => fst p =? snd p) (combine a b) = true <-> a = b.
Proof.
  induction a as [|x a IH]; intros [|y b] L; try discriminate; [cbn; tauto|]. cbn [combine forallb fst snd]. injection L as L.
  rewrite andb_true_iff, IH, Z.eqb_eq by auto. split; [intros [-> ->]; auto|intros E; injection E; auto].
Qed.
Lemma bigeq_spec a b : bigeq a b = true <-> a = b.
Proof.
  unfold bigeq. destruct (Z.eqb_spec (sign a) (sign b)); cbn [negb orb]; [|split; [discriminate|congruence]].
  destruct (Nat.eqb_spec (length (dig a)) (length (dig b))); cbn [negb]; [|split; [discriminate|congruence]].
  rewrite combine_eq by auto. destruct a, b; cbn in *. split; congruence.
Qed.

(* ---------- addition and subtraction ---------- *)
Lemma mod_div_32 v : v = v mod 2 ^ 32 + 2 ^ 32 * (v / 2 ^ 32). Proof. pose proof (Z.div_mod v (2 ^ 32)). lia. Qed.
Lemma uadd_loop_spec n : forall a b c, length a = S n -> (length b <= n)%nat -> Forall limb a -> Forall limb b -> c = 0 \/ c = 1 ->
  val a + val b + c < (2 ^ 32) ^ Z.of_nat (S n) ->
  exists r, uadd_loop n a b c = Ok r /\ Forall limb r /\ val r = val a + val b + c.
Proof.
  induction n as [|n IH]; intros [|x a] b c La Lb Fa Fb Hc Hv; try discriminate.
  - destruct a; [|discriminate]. destruct b; [|cbn in Lb; lia]. inversion Fa; subst. cbn [uadd_loop val] in *. change (Z.of_nat 1) with 1 in Hv. rewrite Z.pow_1_r in Hv.
    unfold limb in *. rewrite !c32. rewrite (Z.mod_small c) by lia. rewrite Z.mod_small by lia. eexists. split; [reflexivity|].
    split; [repeat constructor; unfold limb; lia|]. cbn [val]. lia.
  - inversion Fa as [|? ? Hx Fa']; subst. unfold limb in Hx. cbn [uadd_loop].
    assert (X : exists y, match b with [] => cast uint64 (x + c) | y :: _ => cast uint64 (cast uint64 (x + c) + y) end = x + y + c /\
        0 <= y < 2 ^ 32 /\ val b = y + 2 ^ 32 * val (tl b) /\ Forall limb (tl b) /\ (length (tl b) <= n)%nat).
    { destruct b as [|y b]; [exists 0|exists y].
      - rewrite c64 by lia. cbn. repeat split; auto; lia.
      - inversion Fb; subst. unfold limb in *. rewrite (c64 (x + c)) by lia. rewrite c64 by lia. cbn [val tl length] in *. repeat split; auto; lia. }
    destruct X as (y & -> & Hy & Vb & Ft & Lt). clear Fb Lb.
    set (v := x + y + c) in *. assert (C : (if Base <=? v then 1 else 0) = v / 2 ^ 32).
    { rewrite Base_eq. destruct (Z.leb_spec (2 ^ 32) v).
      - apply Z.div_unique with (v - 2 ^ 32); lia.
      - symmetry. apply Z.div_small. lia. }
    rewrite C. cbn [val] in Hv |- *. rewrite Nat2Z.inj_succ, Z.pow_succ_r in Hv by lia. pose proof (mod_div_32 v) as Dv. pose proof (Z.mod_pos_bound v (2 ^ 32) ltac:(lia)).
    destruct (IH a (tl b) (v / 2 ^ 32)) as (r & -> & Fr & Vr); auto.
    + rewrite <- C. destruct (Base <=? v); auto.
    + lia.
    + eexists. split; [reflexivity|]. split; [constructor; auto; apply limb32|]. cbn [val]. rewrite c32. lia.
Qed.
Lemma uadd_spec a b : Forall limb (dig a) -> Forall limb (dig b) -> sign a = 1 \/ sign a = -1 \/ val (dig a) + val (dig b) = 0 ->
  exists r, uadd a b = Ok r /\ normal r /\ number r = sign a * (val (dig a) + val (dig b)).
Proof.
  intros Fa Fb S. unfold uadd. set (n := Nat.max (length (dig a)) (length (dig b))).
  destruct (uadd_loop_spec n (zgrow (dig a) (n + 1)) (dig b) 0) as (r & -> & Fr & Vr); auto using limb_zgrow.
  - rewrite zgrow_length; lia.
  - lia.
  - rewrite val_zgrow. pose proof (val_range _ Fa). pose proof (val_range _ Fb).
    assert ((2 ^ 32) ^ Z.of_nat (length (dig a)) <= (2 ^ 32) ^ Z.of_nat n) by (apply Z.pow_le_mono_r; lia).
    assert ((2 ^ 32) ^ Z.of_nat (length (dig b)) <= (2 ^ 32) ^ Z.of_nat n) by (apply Z.pow_le_mono_r; lia).
    rewrite Nat2Z.inj_succ, Z.pow_succ_r by lia. lia.
  - rewrite val_zgrow in Vr. eexists. split; [reflexivity|]. destruct (trim_spec (mkbig r (sign a))) as [N E]; auto.
    + cbn [sign dig]. rewrite Vr. destruct S as [?|[?|?]]; auto. right. right. lia.
    + split; auto. rewrite E. unfold number. cbn [sign dig]. rewrite Vr. f_equal. lia.
Qed.
Lemma usub_loop_spec a : forall b c, (length b <= length a)%nat -> Forall limb a -> Forall limb b -> c = 0 \/ c = 1 ->
  0 <= val a - val b - c -> Forall limb (usub_loop a b c) /\ val (usub_loop a b c) = val a - val b - c.
Proof.
  induction a as [|x a IH]; intros b c Lb Fa Fb Hc Hv.
  - destruct b; [|cbn in Lb; lia]. cbn [val usub_loop] in *. split; auto. lia.
  - inversion Fa as [|? ? Hx Fa']; subst. unfold limb in Hx. cbn [usub_loop].
    assert (X : exists y, match b with [] => cast int64 (x - c) | y :: _ => cast int64 (cast int64 (x - c) - y) end = x - y - c /\
        0 <= y < 2 ^ 32 /\ val b = y + 2 ^ 32 * val (tl b) /\ Forall limb (tl b) /\ (length (tl b) <= length a)%nat).
    { destruct b as [|y b]; [exists 0|exists y].
      - rewrite i64 by lia. cbn. repeat split; auto; lia.
      - inversion Fb; subst. unfold limb in *. rewrite (i64 (x - c)) by lia. rewrite i64 by lia. cbn [val tl length] in *. repeat split; auto; lia. }
    destruct X as (y & -> & Hy & Vb & Ft & Lt). clear Fb Lb. set (v := x - y - c) in *.
    assert (C : (if v <? 0 then 1 else 0) = - (v / 2 ^ 32)).
    { destruct (Z.ltb_spec v 0).
      - assert (v / 2 ^ 32 = -1); [|lia]. symmetry. apply Z.div_unique with (v + 2 ^ 32); lia.
      - assert (v / 2 ^ 32 = 0) by (apply Z.div_small; lia). lia. }
    rewrite C. cbn [val] in Hv |- *. pose proof (mod_div_32 v) as Dv. pose proof (Z.mod_pos_bound v (2 ^ 32) ltac:(lia)).
    destruct (IH (tl b) (- (v / 2 ^ 32))) as [Fr Vr]; auto.
    + rewrite <- C. destruct (v <? 0); auto.
    + lia.
    + split; [constructor; auto; apply limb32|]. rewrite c32. lia.
Qed.
Lemma usub_spec a b : normal a -> Forall limb (dig b) -> (length (dig b) <= length (dig a))%nat -> val (dig b) <= val (dig a) ->
  normal (usub a b) /\ number (usub a b) = sign a * (val (dig a) - val (dig b)).
Proof.
  intros Na Fb L V. destruct (usub_loop_spec (dig a) (dig b) 0 L (proj1 Na) Fb) as [Fr Vr]; [auto|lia|]. unfold usub.
  destruct (trim_spec (mkbig (usub_loop (dig a) (dig b) 0) (sign a))) as [N E]; auto; cbn [sign dig].
  - destruct Na as [_ [[Ea Sa]|[_ [_ [?|?]]]]]; auto. right. right. rewrite Vr. rewrite Ea in *. destruct (dig b); [|cbn in L; lia]. cbn. lia.
  - split; auto. rewrite E. unfold number. cbn [sign dig]. rewrite Vr. f_equal. lia.
Qed.
Lemma normal_len_le a b : normal a -> normal b -> val (dig a) <= val (dig b) -> (length (dig a) <= length (dig b))%nat.
Proof.
  intros Na Nb H. pose proof (cmpabs_spec a b Na Nb) as C. unfold bigcmpabs in C.
  destruct (Nat.ltb_spec (length (dig a)) (length (dig b))); [lia|]. destruct (Nat.ltb_spec (length (dig b)) (length (dig a))); lia.
Qed.
Lemma bigadd_spec a b : normal a -> normal b -> exists r, bigadd a b = Ok r /\ normal r /\ number r = number a + number b.
Proof.
  intros Na Nb. pose proof (val_range _ (proj1 Na)) as Ra. pose proof (val_range _ (proj1 Nb)) as Rb. unfold bigadd.
  assert (Sa : dig a = [] /\ sign a = 0 \/ (sign a = 1 \/ sign a = -1)) by (destruct Na as [_ [?|[? [? ?]]]]; auto).
  assert (Sb : dig b = [] /\ sign b = 0 \/ (sign b = 1 \/ sign b = -1)) by (destruct Nb as [_ [?|[? [? ?]]]]; auto).
  destruct ((sign a =? sign b) || (sign a =? 0)) eqn:Q.
  - assert (P : (sign a = sign b) \/ dig a = []) by (destruct (Z.eqb_spec (sign a) (sign b)), (Z.eqb_spec (sign a) 0); try discriminate; auto; destruct Sa as [[? ?]|[?|?]]; auto; lia).
    destruct (uadd_spec (mkbig (dig a) (sign b)) b) as (r & -> & Nr & Vr); cbn [dig sign]; [apply Na|apply Nb| |].
    + destruct Sb as [[Eb S0]|[?|?]]; auto. right. right. rewrite Eb. destruct P as [P|P]; [|rewrite P; cbn; lia].
      destruct Sa as [[-> _]|[?|?]]; [cbn; lia|lia|lia].
    + exists r. split; auto. split; auto. rewrite Vr. cbn [dig sign]. unfold number. destruct P as [P|P]; [rewrite P; lia|rewrite P; cbn [val]; lia].
  - apply orb_false_iff in Q as [Q1 Q2]. apply Z.eqb_neq in Q1, Q2. destruct (Z.eqb_spec (sign b) 0) as [Z0|Z0].
    + exists a. split; auto. split; auto. unfold number. rewrite Z0. lia.
    + pose proof (cmpabs_spec a b Na Nb) as C.
      assert (O : sign a = - sign b) by lia.
      destruct (bigcmpabs a b); (eexists; split; [reflexivity|]).
      * destruct (usub_spec b (mkbig (dig a) (sign b)) Nb) as [N E]; cbn [dig]; [apply Na|apply normal_len_le; auto; lia|lia|].
        split; auto. rewrite E. unfold number. cbn [dig]. rewrite O. lia.
      * split; [split; cbn; auto|]. unfold number. rewrite C, O. cbn [sign bigclear]. lia.
      * destruct (usub_spec a b Na) as [N E]; [apply Nb|apply normal_len_le; auto; lia|lia|]. split; auto. rewrite E. unfold number. rewrite O. lia.
Qed.
Lemma normal_opp b : normal b -> normal (mkbig (dig b) (- sign b)).
Proof. intros [F [[E S]|[E [L S]]]]; (split; [auto|]); cbn; [left|right]; repeat split; auto; lia. Qed.
Lemma bigsub_spec a b : normal a -> normal b -> exists r, bigsub a b = Ok r /\ normal r /\ number r = number a - number b.
Proof.
  intros Na Nb. pose proof (val_range _ (proj1 Na)) as Ra. pose proof (val_range _ (proj1 Nb)) as Rb. unfold bigsub.
  destruct (Z.eqb_spec (sign a) 0) as [Sa|Sa].
  { eexists. split; [reflexivity|]. split; [now apply normal_opp|]. unfold number. cbn. rewrite Sa. lia. }
  destruct (Z.eqb_spec (sign b) 0) as [Sb|Sb].
  { exists a. split; auto. split; auto. unfold number. rewrite Sb. lia. }
  assert (Ta : sign a = 1 \/ sign a = -1) by (destruct Na as [_ [[? ?]|[? [? ?]]]]; [congruence|auto]).
  assert (Tb : sign b = 1 \/ sign b = -1) by (destruct Nb as [_ [[? ?]|[? [? ?]]]]; [congruence|auto]).
  destruct (Z.eqb_spec (sign a) (sign b)) as [E|E]; cbn [negb].
  - pose proof (cmpabs_spec a b Na Nb) as C. destruct (bigcmpabs a b); (eexists; split; [reflexivity|]).
    + destruct (usub_spec b a Nb) as [N E']; [apply Na|apply normal_len_le; auto; lia|lia|].
      assert (P : sign (usub b a) = sign b).
      { rewrite (normal_sign _ N), E'. rewrite Z.sgn_mul, (Z.sgn_pos (val (dig b) - _)) by lia. destruct Tb as [->| ->]; reflexivity. }
      pose proof (normal_opp _ N) as N'. rewrite P in N'. replace (-1 * sign b) with (- sign b) by lia. split; auto.
      unfold number in *. cbn [dig sign]. rewrite P in E'. rewrite E. nia.
    + split; [split; cbn; auto|]. unfold number. rewrite C, E. cbn [sign bigclear]. lia.
    + destruct (usub_spec a b Na) as [N E']; [apply Nb|apply normal_len_le; auto; lia|lia|]. split; auto. rewrite E'. unfold number. rewrite E. lia.
  - destruct (uadd_spec a b) as (r & -> & Nr & Vr); [apply Na|apply Nb|tauto|]. exists r. split; auto. split; auto. rewrite Vr.
    unfold number. replace (sign b) with (- sign a) by lia. lia.
Qed.
