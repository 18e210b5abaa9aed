(* C76-C78: reuse of a compiled regex, substitution, and character classes. *)
From Verif Require Import Base Regex_Model Regex_Spec Regex_Comp Regex_Rng Regex_Gen Regex_Run Regex_Term Regex_Class Regex_Props.
Open Scope nat_scope.

(* ---- C76: a compiled regex can be used again ---- *)
(* what exec and search leave behind is a fresh regex: see C74_exec_partial and C75_search_partial *)
Theorem C76_reuse_partial : forall isword t P nm fuel s1 s2 r1 r2 re1 re2, pattern t -> compile t = Some P ->
  iexec isword fuel (fresh P nm) s1 = Val (r1, re1) -> iexec isword fuel re1 s2 = Val (r2, re2) ->
  iexec isword fuel (fresh P nm) s2 = Val (r2, re2).
Proof. intros isword t P nm fuel s1 s2 r1 r2 re1 re2 Pt C E1 E2. destruct (C74_exec_partial _ _ _ _ _ _ _ _ Pt C E1) as (-> & _). exact E2. Qed.
Print Assumptions C76_reuse_partial.

Section Stale.
Variable isword : list N -> bool.
Variables (t : ast) (P : list inst) (s : list N).
Hypothesis O : okpat t.
Hypothesis C : compile t = Some P.
(* with threads counted that do not exist, a run ends only by a match at the end of the string *)
Lemma rounds_stale c0 n0 fuel : (0 < n0)%Z -> forall p q n, (q <> [] -> p <= length s) -> Forall (at_ isword P s c0 p) q -> n = (n0 + Z.of_nat (length q))%Z ->
  match rounds isword P s fuel true p q None n with Ret b n' => exists th, b = Some th /\ at_ isword P s c0 (length s) th /\ ismatch P (ip th) | _ => True end.
Proof.
  intros N0. induction fuel as [|fuel IH]; intros p q n L Aq En; cbn [rounds]; [exact I|]. assert ((0 <? n)%Z = true) as -> by (apply Z.ltb_lt; lia).
  destruct (Nat.le_gt_cases p (length s)) as [Lp|Lp].
  - pose proof (round_ok isword P s (compile_noeat isword t P s O C) c0 true (S fuel) p q [] [] None n Lp Aq ltac:(constructor) ltac:(congruence) ltac:(intros ? [])) as R.
    destruct (round isword P s (S fuel) true p q [] [] None n) as [e' b' n'|th e' n'| |]; auto.
    + cbn in R. destruct R as (A1 & A2 & A3 & A4 & _). rewrite (A4 eq_refl eq_refl). apply IH; auto; [|lia]. intros X. specialize (A3 X). lia.
    + cbn in R. destruct R as (-> & At & M & _). eauto.
  - assert (Eq : q = []) by (destruct q; auto; specialize (L ltac:(discriminate)); lia). subst q. cbn [round]. apply IH; auto. congruence.
Qed.
Lemma stale_never nm n0 fuel r : (0 < n0)%Z -> exactpat t -> ~ matchat isword t s 0 (length s) -> iexec isword fuel (mkre P nm n0) s <> Val r.
Proof.
  intros N0 X Nm E. unfold iexec, runre, run in E. cbn [prog nmatch nthr] in E. destruct (16 <? nm); [discriminate|].
  pose proof (rounds_stale (0, 0, nogroups) n0 fuel N0 0 [mkthr 0 (repeat (None, None) 16)] (n0 + 1)%Z ltac:(lia) ltac:(constructor; [exists 0; constructor|constructor]) eq_refl) as R.
  destruct (rounds isword P s fuel true 0 [mkthr 0 (repeat (None, None) 16)] None (n0 + 1)%Z) as [b n| |]; try discriminate. destruct R as (th & -> & At & M).
  apply Nm. apply matchat_iff; auto. apply (hits_iff isword t P O C). exists (ip th), nogroups, (mgroup th). auto.
Qed.
End Stale.
(* after a sub that stops with threads left over, a later exec of a string that does not match never returns *)
Definition stale_t : ast := Alt (Cap 1 (Chr 97)) (Cap 2 (Cat (Chr 97) (Chr 98))).
Theorem C76_sub_refuted : exists t s1 ws o re', pattern t /\ loopsok t /\ sub noword 50 (fresh (progof t) 3) s1 ws = Val (Some o, re') /\
  forall s2 fuel r, ~ matchat noword t s2 0 (length s2) -> iexec noword fuel re' s2 <> Val r.
Proof.
  exists stale_t, [97]%N, [[120]%N; [121]%N], [120]%N, (mkre (progof stale_t) 3 1). split; [repeat split; cbn; lia|]. split; [repeat split|]. split; [vm_compute; reflexivity|].
  intros s2 fuel r Nm. apply (stale_never noword stale_t); [repeat split; cbn; lia|reflexivity|lia|repeat split|exact Nm].
Qed.
Example C76_sub_used : ~ matchat noword stale_t [98]%N 0 1.
Proof.
  intros (g & M). inversion M as [? ? ? ? ? ? M1|? ? ? ? ? ? M1| | | | | | | | | | | | |]; subst.
  - inversion M1 as [| | | | | | | | | |m a i0 g0 j0 g1 M2| | | |]; subst. inversion M2 as [| | | | | | | |c i2 g4 St| | | | | |]; subst. apply stands_cons in St as [E _]. discriminate.
  - inversion M1 as [| | | | | | | | | |m a i0 g0 j0 g1 M2| | | |]; subst. inversion M2 as [| |a b i0 g0' k g1' j0 g2 M3 M4| | | | | | | | | | | |]; subst. inversion M3 as [| | | | | | | |c i2 g4 St| | | | | |]; subst. apply stands_cons in St as [E _]. discriminate.
Qed.

(* ---- C77: substitution ---- *)
Definition part (s : list N) (a b : nat) : list N := firstn (b - a) (skipn a s).
(* o is s from off on, with the text of each set group replaced *)
Inductive spliced (s : list N) : nat -> list group -> list (list N) -> list N -> Prop :=
| sp_end off : off <= length s -> spliced s off [] [] (part s off (length s))
| sp_unset off lo hi gs w ws o : lo = None \/ hi = None -> spliced s off gs ws o -> spliced s off ((lo, hi) :: gs) (w :: ws) o
| sp_set off lo hi gs w ws o : off <= lo <= length s -> spliced s hi gs ws o -> spliced s off ((Some lo, Some hi) :: gs) (w :: ws) (part s off lo ++ w ++ o).
Lemma dosubst_ok s gs : forall ws off o, length gs = length ws -> dosubst gs s ws off = Some o -> spliced s off gs ws o.
Proof.
  induction gs as [|[lo hi] gs IH]; intros [|w ws] off o L E; cbn in L; try lia.
  - cbn in E. unfold slice in E. destruct (Nat.leb_spec off (length s)); cbn in E; [|discriminate]. rewrite Nat.leb_refl in E. injection E as <-. constructor. auto.
  - destruct lo as [lo|]; [destruct hi as [hi|]|]; cbn in E.
    + unfold slice in E. destruct (Nat.leb_spec off lo); cbn in E; [|discriminate]. destruct (Nat.leb_spec lo (length s)); cbn in E; [|discriminate].
      destruct (dosubst gs s ws hi) as [b|] eqn:D; [|discriminate]. injection E as <-. apply sp_set; [lia|]. apply IH; auto.
    + apply sp_unset; [auto|]. apply IH; auto.
    + apply sp_unset; [auto|]. apply IH; auto.
Qed.
Lemma matches_len isword cls s t i g j g' : matches isword cls s t i g j g' -> length g' = length g.
Proof. induction 1; auto; try congruence. unfold sethi, setlo in *. rewrite upd_length in *. auto. Qed.
(* what sub returns: the string with the groups of a match of the whole string replaced *)
Theorem C77_sub_partial : forall isword t P nm fuel s ws r re', pattern t -> nm <= 16 -> compile t = Some P ->
  sub isword fuel (fresh P nm) s ws = Val (r, re') ->
  match r with
  | None => ~ matchat isword t s 0 (length s)
  | Some o => exists g, matches isword encoded s (Cap 0 t) 0 nogroups (length s) g /\ spliced s 0 (skipn 1 (firstn nm g)) ws o
  end.
Proof.
  intros isword t P nm fuel s ws r re' (O & X) Nm C E. unfold sub, runre in E. cbn [prog nmatch nthr fresh] in E. destruct (Nat.eqb_spec nm (length ws + 1)) as [En|]; [|discriminate].
  destruct (run isword P s fuel true nm 0) as [[th|] n| |] eqn:R; try discriminate; apply (run_ok isword t P O C) in R.
  - unfold groups in E. cbn [nmatch fresh] in E. destruct (dosubst (skipn 1 (firstn nm (mgroup th))) s ws 0) as [o|] eqn:D; [|discriminate]. injection E as <- <-.
    destruct R as (e & _ & M & We & _). rewrite (We eq_refl) in M. exists (mgroup th). split; [apply exact_ok; auto|]. apply dosubst_ok; auto.
    apply matches_len in M. rewrite skipn_length, firstn_length, M. unfold nogroups. rewrite repeat_length. lia.
  - injection E as <- <-. destruct R as (-> & R & _). intros M. apply matchat_iff in M as (g & g' & M); auto. eapply R; eauto.
Qed.
Print Assumptions C77_sub_partial.
(* the groups a* and c* around b, in "aabcc" *)
Definition sub_t : ast := Cat (Cap 1 (Star (Chr 97) false)) (Cat (Chr 98) (Cap 2 (Star (Chr 99) false))).
Example C77_sub_used : pattern sub_t /\ exists re', sub noword 50 (fresh (progof sub_t) 3) [97; 97; 98; 99; 99]%N [[120]%N; [121]%N] = Val (Some [120; 98; 121]%N, re').
Proof. split; [repeat split; cbn; lia|]. eexists. vm_compute. reflexivity. Qed.
(* a group inside a group makes sub abort *)
Theorem C77_nested_refuted : exists t s ws, pattern t /\ matchat noword t s 0 (length s) /\ sub noword 50 (fresh (progof t) 3) s ws = Aborted.
Proof.
  exists (Cap 1 (Cap 2 (Chr 97))), [97]%N, [[120]%N; [121]%N]. split; [repeat split; cbn; lia|]. split; [|vm_compute; reflexivity].
  eexists. do 2 apply m_cap. change 1 with (0 + 1). apply (m_chr noword encoded [97]%N 97). exists [], []. auto.
Qed.

(* suball: unmatched bytes are copied, and at each position with a match the longest one is taken *)
Inductive replaced (isword : list N -> bool) (t : ast) (nm : nat) (s : list N) (ws : list (list N)) : nat -> list N -> Prop :=
| ra_end i : length s <= i -> replaced isword t nm s ws i []
| ra_copy i b o : nth_error s i = Some b -> (forall j, ~ matchat isword t (skipn i s) 0 j) -> replaced isword t nm s ws (i + 1) o -> replaced isword t nm s ws i (b :: o)
| ra_match i j g o1 o : i < length s -> matches isword encoded (skipn i s) (Cap 0 t) 0 nogroups j g -> (forall j', matchat isword t (skipn i s) 0 j' -> j' <= j) ->
    spliced (part s i (i + j)) 0 (skipn 1 (firstn nm g)) ws o1 -> replaced isword t nm s ws (i + j) o -> replaced isword t nm s ws i (o1 ++ o).
Lemma cap0_end isword cls s t i g j g' : matches isword cls s (Cap 0 t) i g j g' -> 0 < length g -> snd (nth 0 g' (None, None)) = Some j.
Proof.
  intros M L. pose proof (matches_len _ _ _ _ _ _ _ _ M) as Le. inversion M; subst. unfold sethi. rewrite nth_upd_same; [reflexivity|]. unfold sethi in Le. rewrite upd_length in Le. lia.
Qed.
Theorem C77_suball_partial : forall isword t P nm steps fuel s ws o re', pattern t -> nm <= 16 -> compile t = Some P ->
  suball isword steps fuel (fresh P nm) s ws = Val (o, re') -> replaced isword t nm s ws 0 o /\ re' = fresh P nm.
Proof.
  intros isword t P nm steps fuel s ws o re' (O & X) Nm C. unfold suball. cbn [nmatch fresh]. destruct (Nat.eqb_spec nm (length ws + 1)) as [En|]; [|discriminate].
  generalize 0 as i. revert o re'. induction steps as [|steps IH]; intros o re' i E; cbn [suballfrom] in E; [discriminate|].
  destruct (Nat.ltb_spec i (length s)) as [Li|Li]; [|injection E as <- <-; split; [constructor; auto|auto]].
  unfold runre in E. cbn [prog nmatch nthr fresh] in E. destruct (run isword P (skipn i s) fuel false nm 0) as [[th|] n| |] eqn:R; try discriminate; apply (run_ok isword t P O C) in R.
  - destruct R as (e & Le & M & _ & Mx). pose proof (cap0_end _ _ _ _ _ _ _ _ M ltac:(cbn; lia)) as Ce.
    destruct (nth 0 (mgroup th) (None, None)) as [lo hi]. cbn in Ce. subst hi. rewrite skipn_length in Le.
    unfold slice in E. destruct (Nat.leb_spec i (e + i)); [|lia]. destruct (Nat.leb_spec (e + i) (length s)); [|lia]. cbn [andb] in E. unfold groups in E. cbn [nmatch fresh] in E.
    destruct (dosubst (skipn 1 (firstn nm (mgroup th))) (firstn (e + i - i) (skipn i s)) ws 0) as [o1|] eqn:D; [|discriminate].
    destruct (suballfrom isword steps fuel (setn (fresh P nm) 0) s ws (i + e)) as [[o2 re2]| |] eqn:E2; try discriminate. injection E as <- <-.
    destruct (IH _ _ _ E2) as (Re & ->). split; auto. eapply ra_match; eauto; [apply exact_ok; eauto| |].
    + intros j' M'. apply matchat_iff in M' as (g & g' & M'); auto. eapply Mx; eauto.
    + unfold part. replace (i + e - i) with (e + i - i) by lia. apply dosubst_ok; auto. apply matches_len in M. rewrite skipn_length, firstn_length, M. unfold nogroups. rewrite repeat_length. lia.
  - destruct R as (-> & _ & R). destruct (suballfrom isword steps fuel (setn (fresh P nm) 0) s ws (i + 1)) as [[o2 re2]| |] eqn:E2; try discriminate. injection E as <- <-.
    destruct (IH _ _ _ E2) as (Re & ->). split; auto. apply ra_copy; auto; [rewrite (nth_error_nth' s 0%N) by auto; reflexivity|].
    intros j M. apply matchat_iff in M as (g & g' & M); auto. eapply R; eauto.
Qed.
Print Assumptions C77_suball_partial.
Example C77_suball_used : pattern (Cap 1 (Plus (Chr 97) false)) /\
  suball noword 50 50 (fresh (progof (Cap 1 (Plus (Chr 97) false))) 2) [98; 97; 97; 98; 97]%N [[120]%N] = Val ([98; 120; 98; 120]%N, fresh (progof (Cap 1 (Plus (Chr 97) false))) 2).
Proof. split; [repeat split; cbn; lia|]. vm_compute. reflexivity. Qed.
(* where the pattern matches the empty string, suball makes no progress: a group x* in "b" *)
Lemma rounds_mono isword P s f : forall f' w p q b n, f <= f' -> rounds isword P s f w p q b n <> Hang -> rounds isword P s f' w p q b n = rounds isword P s f w p q b n.
Proof.
  induction f as [|f IH]; intros f' w p q b n L H; [cbn in H; congruence|]. destruct f' as [|f']; [lia|]. cbn [rounds] in *. destruct (0 <? n)%Z; auto.
  rewrite (round_mono isword P s (S f) (S f')) by (try lia; intros E; rewrite E in H; congruence).
  destruct (round isword P s (S f) w p q [] [] b n); auto. apply IH; [lia|auto].
Qed.
Lemma run_same isword P s f f' w nm n0 b n : run isword P s f w nm n0 = Ret b n -> run isword P s f' w nm n0 = Hang \/ run isword P s f' w nm n0 = Ret b n.
Proof.
  unfold run. destruct (16 <? nm); [discriminate|]. intros E. destruct (Nat.le_gt_cases f f') as [L|L].
  - right. rewrite (rounds_mono isword P s f f') by (auto; congruence). auto.
  - destruct (rounds isword P s f' w 0 [mkthr 0 (repeat (None, None) 16)] None (n0 + 1)) eqn:E'; auto; right; rewrite (rounds_mono isword P s f' f) in E by (try lia; congruence); congruence.
Qed.
Definition empty_t : ast := Cap 1 (Star (Chr 120) false).
Theorem C77_empty_refuted : exists t s ws, pattern t /\ loopsok t /\ forall steps fuel, suball noword steps fuel (fresh (progof t) 2) s ws = Hung.
Proof.
  exists empty_t, [98]%N, [[121]%N]. split; [repeat split; cbn; lia|]. split; [repeat split|]. intros steps fuel. unfold suball. change (nmatch (fresh (progof empty_t) 2) =? length [[121]%N] + 1) with true. cbv iota.
  induction steps as [|steps IH]; [reflexivity|]. cbn [suballfrom length Nat.ltb Nat.leb]. unfold runre. cbn [prog nmatch nthr fresh skipn].
  assert (R : run noword (progof empty_t) [98]%N 50 false 2 0 = Ret (Some (mkthr (lastpc (progof empty_t)) ((Some 0, Some 0) :: (Some 0, Some 0) :: repeat (None, None) 14))) 0) by (vm_compute; reflexivity).
  destruct (run_same _ _ _ _ fuel _ _ _ _ _ R) as [E|E]; rewrite E; [reflexivity|]. cbn [nth mgroup]. cbn [slice Nat.add length Nat.leb andb Nat.sub firstn skipn groups nmatch fresh mgroup].
  change (setn (fresh (progof empty_t) 2) 0) with (fresh (progof empty_t) 2). rewrite IH. reflexivity.
Qed.

(* ---- C78: character classes ---- *)
(* the table built for a class: merging ranges keeps the characters, if no range lies inside an earlier one *)
Theorem C78_merge_partial : forall rl c, ordered rl -> (inclass (merge rl) c <-> inclass rl c).
Proof.
  intros [|[a b] rl] c Or; [reflexivity|]. cbn [merge fst snd]. cbn in Or. destruct Or as (O1 & O2 & O3 & O4). rewrite merge_ok by (auto; destruct rl; auto).
  unfold inclass. split; [intros [B|(r & I & B)]; [exists (a, b); split; [left; auto|auto]|exists r; split; [right; auto|auto]]|intros (r & [<-|I] & B); [left; auto|right; eauto]].
Qed.
(* negating keeps exactly the other characters, if the ranges are apart and reach neither end *)
Theorem C78_negate_partial : forall r rl c, gapped 0 (r :: rl) -> (inclass (negate (r :: rl)) c <-> (c <= Maxcharval)%N /\ ~ inclass (r :: rl) c).
Proof.
  intros r rl c G. unfold negate. rewrite (negate_ok (r :: rl) c 0 0); [|unfold Maxcharval; lia|discriminate|exact G]. split; intros (A & B); (split; [lia|exact B]).
Qed.
Print Assumptions C78_merge_partial.
Print Assumptions C78_negate_partial.
Example C78_used : ordered [(65, 90); (97, 102); (100, 110)]%N /\ merge [(65, 90); (97, 102); (100, 110)]%N = [(65, 90); (97, 110)]%N
  /\ gapped 0 [(48, 57); (65, 90)]%N /\ negate [(48, 57); (65, 90)]%N = [(0, 47); (58, 64); (91, Maxcharval)]%N.
Proof. split; [cbn; lia|]. split; [reflexivity|]. split; [cbn; unfold Maxcharval; lia|reflexivity]. Qed.
(* [a-zc] loses d to z *)
Theorem C78_merge_refuted : exists rl c, Forall (fun r => (fst r <= snd r)%N) rl /\ (forall i, i + 1 < length rl -> (fst (nth i rl (0, 0)) <= fst (nth (i + 1) rl (0, 0)))%N) /\ inclass rl c /\ ~ inclass (merge rl) c.
Proof.
  exists [(97, 122); (99, 99)]%N, 100%N. split; [repeat constructor; cbn; lia|]. split; [intros [|i] L; cbn in *; lia|]. split; [exists (97, 122)%N; cbn; split; [auto|lia]|].
  intros (r & I & B). cbn in I. destruct I as [<-|[]]. cbn in B. lia.
Qed.
(* a class that starts with the first character keeps, negated, a range from 0 to the largest 32-bit value *)
Theorem C78_negate_refuted : exists rl c, Forall (fun r => (fst r <= snd r)%N) rl /\ inclass rl c /\ inclass (negate rl) c.
Proof.
  exists [(0, 31)]%N, 7%N. split; [repeat constructor; cbn; lia|]. split; [exists (0, 31)%N; cbn; split; [auto|lia]|]. exists (0, 4294967295)%N. split; [left; reflexivity|cbn; lia].
Qed.
(* [а-я], Cyrillic, matches no string at all *)
Theorem C78_cyrillic_refuted : exists t, okpat t /\ (exists s, matchat noword t s 0 (length s)) /\
  forall isword fuel s r re', iexec isword fuel (fresh (progof t) 1) s = Val (r, re') -> r = None.
Proof.
  exists (Ranges [(0x430, 0x44f)]%N). assert (O : okpat (Ranges [(0x430, 0x44f)]%N)) by (cbn; split; [discriminate|repeat constructor; cbn; lia]). split; [exact O|]. split.
  - exists (Utf_Spec.utf8 0x431). exists nogroups. rewrite <- (Nat.add_0_l (length _)). constructor; [exists 0x431%N; split; [exists (0x430, 0x44f)%N; cbn; split; [auto|lia]|auto]|]. exists [], []. auto.
  - intros isword fuel s r re' E. assert (C : compile (Ranges [(0x430, 0x44f)]%N) = Some (progof (Ranges [(0x430, 0x44f)]%N))) by (vm_compute; reflexivity).
    unfold iexec, runre in E. cbn [prog nmatch nthr fresh] in E. destruct (run isword (progof (Ranges [(0x430, 0x44f)]%N)) s fuel true 1 0) as [[th|] n| |] eqn:R; try discriminate; [|injection E as <- <-; auto].
    exfalso. apply (run_ok isword _ _ O C) in R. destruct R as (e & _ & M & _). inversion M as [| | | | | | | | | |m a i0 g0 j0 g1 M2| | | |]; subst. inversion M2 as [| | | | | | | | |rl w i2 g4 B St| | | | |]; subst.
    destruct B as (p & I & W). assert (Ep : p = ([0xd0; 0xb0]%N, [0xd1; 0x8f]%N)) by (vm_compute in I; destruct I as [<-|[]]; reflexivity). subst p.
    destruct w as [|x [|y w]]; cbn in W; try tauto. destruct W as (_ & B & _). lia.
Qed.
(* . does not match U+1F600 *)
Theorem C78_dot_refuted : exists t s, okpat t /\ t = Ranges [(0, Maxcharval)]%N /\ s = Utf_Spec.utf8 0x1f600 /\ matchat noword t s 0 (length s) /\
  iexec noword 50 (fresh (progof t) 1) s = Val (None, fresh (progof t) 1).
Proof.
  eexists _, _. split; [|split; [reflexivity|split; [reflexivity|split; [|vm_compute; reflexivity]]]].
  - cbn. split; [discriminate|]. repeat constructor; cbn; unfold Maxcharval; lia.
  - exists nogroups. rewrite <- (Nat.add_0_l (length _)). constructor; [exists 0x1f600%N; split; [exists (0, Maxcharval)%N; cbn; unfold Maxcharval; split; [auto|lia]|auto]|]. exists [], []. split; [rewrite app_nil_r; reflexivity|reflexivity].
Qed.
(* a character above U+FFFF in a pattern makes compile abort *)
Theorem C78_astral_refuted : exists c, (c <= Maxcharval)%N /\ compile (Chr c) = None.
Proof. exists 0x1f600%N. split; [unfold Maxcharval; lia|vm_compute; reflexivity]. Qed.
Print Assumptions C76_sub_refuted.
Print Assumptions C77_nested_refuted.
Print Assumptions C77_empty_refuted.
Print Assumptions C78_merge_refuted.
Print Assumptions C78_negate_refuted.
Print Assumptions C78_cyrillic_refuted.
Print Assumptions C78_dot_refuted.
Print Assumptions C78_astral_refuted.
