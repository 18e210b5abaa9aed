(* C74-C78: regular expressions. *)
From Verif Require Import Base Regex_Model Regex_Spec Regex_Comp Regex_Rng Regex_Gen Regex_Run Regex_Term Regex_Class.
Open Scope nat_scope.

(* patterns the theorems are about: no character above U+FFFF outside classes, at most 15 groups, ranges in order, and
   classes made of ASCII ranges or of ranges within one block of 64 characters *)
Definition pattern (t : ast) : Prop := okpat t /\ exactpat t.
(* a freshly compiled regex with nm groups, the whole match included *)
Definition fresh (P : list inst) (nm : nat) : regex := mkre P nm 0.

Section Glue.
Variable isword : list N -> bool.
Variables (t : ast) (P : list inst).
Hypothesis O : okpat t.
Hypothesis C : compile t = Some P.
Lemma match_last v : ismatch P v <-> v = lastpc P.
Proof.
  destruct (compile_last _ _ O C) as (Lm & Sh & _). split; [|intros ->; exists 0; auto].
  intros (id & M). destruct (Sh _ _ M) as [(_ & X)|(X & _)]; [cbn in X; tauto|auto].
Qed.
Lemma hits_iff s e : hits isword P s 0 0 e <-> exists g g', matches isword bytecls s t 0 g e g'.
Proof.
  split.
  - intros (w & g & g' & R & M). apply match_last in M. subst w. eapply whole_sound in R; eauto; [|lia]. inversion R; subst. eauto.
  - intros (g & g' & M). destruct (matches_any _ _ _ _ _ _ _ _ M (setlo nogroups 0 0)) as (h & M'). exists (lastpc P), nogroups, (sethi h 0 e). split; [|apply match_last; auto].
    eapply whole_complete; eauto. constructor. auto.
Qed.
Lemma run_ok s fuel whole nm b n : run isword P s fuel whole nm 0 = Ret b n ->
  match b with
  | None => n = 0%Z /\ (forall g g', ~ matches isword bytecls s t 0 g (length s) g') /\ (whole = false -> forall e g g', ~ matches isword bytecls s t 0 g e g')
  | Some th => exists e, e <= length s /\ matches isword bytecls s (Cap 0 t) 0 nogroups e (mgroup th) /\ (whole = true -> e = length s) /\
                 forall e' g g', matches isword bytecls s t 0 g e' g' -> e' <= e
  end.
Proof.
  unfold run. destruct (16 <? nm); [discriminate|]. intros R.
  pose proof (rounds_ok isword P s (compile_noeat isword t P s O C) (0, 0, nogroups) whole fuel 0 [mkthr 0 (repeat (None, None) 16)] None (0 + 1)%Z ltac:(lia)
    ltac:(constructor; [exists 0; constructor|constructor]) eq_refl ltac:(auto)) as X.
  rewrite R in X. clear R. destruct b as [th|]; cbn in X.
  - destruct X as [(_ & ? & _)|(e & Le & At & M & We & Mx)]; [discriminate|]. exists e. split; [lia|]. apply match_last in M. unfold at_ in At. rewrite M in At.
    eapply whole_sound in At; eauto; [|lia]. split; auto. split; auto. intros e' g g' M'. apply (Mx 0 e'); auto. apply hits_iff. eauto.
  - destruct X as (_ & -> & X). split; auto. destruct (X 0 ltac:(auto)) as [X1 X2]. split.
    + intros g g' M. apply X1. apply hits_iff. eauto.
    + intros W e g g' M. apply (X2 W e). apply hits_iff. eauto.
Qed.
Lemma run_total s whole nm : loopsok t -> (s = [] -> haseow t = false) -> nm <= 16 ->
  exists F, forall fuel, F <= fuel -> exists b n, run isword P s fuel whole nm 0 = Ret b n.
Proof.
  intros Lo He Nm. pose proof (compile_last _ _ O C) as (_ & Sh & Pos & _).
  assert (Lp : length P = lastpc P + 1) by (unfold lastpc in *; lia).
  destruct (rounds_end isword P s (lastpc P) Sh Lp ltac:(intros E; eapply compile_noeow; eauto) (compile_good isword P t O Lo C) (compile_noeat isword t P s O C) (0, 0, nogroups) whole (length s + 1)
    0 [mkthr 0 (repeat (None, None) 16)] None (0 + 1)%Z ltac:(lia) ltac:(lia) ltac:(constructor; [unfold inb; cbn; lia|constructor])
    ltac:(constructor; [exists 0; constructor|constructor]) eq_refl) as (F & HF).
  exists F. intros fuel Hf. unfold run. destruct (Nat.ltb_spec 16 nm); [lia|]. destruct (HF fuel Hf). destruct (rounds isword P s fuel whole 0 [mkthr 0 (repeat (None, None) 16)] None (0 + 1)%Z); try congruence. eauto.
Qed.
End Glue.
Lemma matchat_iff isword t s i j : exactpat t -> (matchat isword t s i j <-> exists g g', matches isword bytecls s t i g j g').
Proof.
  intros X. unfold matchat. split.
  - intros (g & M). exists nogroups, g. apply exact_ok; auto.
  - intros (g & g' & M). apply exact_ok in M; auto. eapply matches_any; eauto.
Qed.

(* ---- C74: exec ---- *)
Theorem C74_compiles : forall t, okpat t -> exists P, compile t = Some P.
Proof. exact compile_some. Qed.
(* whatever exec returns is right: a match of the whole string, with the groups of one way of matching it, or the fact that
   there is none *)
Theorem C74_exec_partial : forall isword t P nm fuel s r re', pattern t -> compile t = Some P ->
  iexec isword fuel (fresh P nm) s = Val (r, re') ->
  re' = fresh P nm /\
  match r with
  | None => ~ matchat isword t s 0 (length s)
  | Some gs => exists g, matches isword encoded s (Cap 0 t) 0 nogroups (length s) g /\ gs = firstn nm g
  end.
Proof.
  intros isword t P nm fuel s r re' (O & X) C E. unfold iexec, runre in E. cbn [prog nmatch nthr fresh] in E.
  destruct (run isword P s fuel true nm 0) as [[th|] n| |] eqn:R; try discriminate; injection E as <- <-; apply (run_ok isword t P O C) in R.
  - split; auto. destruct R as (e & _ & M & We & _). rewrite (We eq_refl) in M. exists (mgroup th). split; auto. apply exact_ok; auto.
  - destruct R as (-> & R & _). split; auto. intros M. apply matchat_iff in M as (g & g' & M); auto. eapply R; eauto.
Qed.
(* and it does return, if no repeated part can match the empty string, and \> is not tried on the empty string *)
Theorem C74_returns_partial : forall isword t P nm s, pattern t -> loopsok t -> (s = [] -> haseow t = false) -> nm <= 16 -> compile t = Some P ->
  exists F, forall fuel, F <= fuel -> exists r, iexec isword fuel (fresh P nm) s = Val (r, fresh P nm).
Proof.
  intros isword t P nm s (O & X) Lo He Nm C. destruct (run_total isword t P O C s true nm Lo He Nm) as (F & HF). exists F. intros fuel Hf. destruct (HF fuel Hf) as (b & n & R).
  unfold iexec, runre. cbn [prog nmatch nthr fresh]. rewrite R. apply (run_ok isword t P O C) in R. destruct b; [eauto|]. destruct R as (-> & _). eauto.
Qed.
Print Assumptions C74_exec_partial.
Print Assumptions C74_returns_partial.
Definition noword (_ : list N) : bool := false.
(* (a|b)*c on "abc" *)
Definition ex_t : ast := Cat (Star (Cap 1 (Alt (Chr 97) (Chr 98))) false) (Chr 99).
Definition progof (t : ast) : list inst := match compile t with Some P => P | None => [] end.
Example C74_used : pattern ex_t /\ loopsok ex_t /\ iexec noword 50 (fresh (progof ex_t) 2) [97; 98; 99]%N = Val (Some [(Some 0, Some 3); (Some 1, Some 2)], fresh (progof ex_t) 2)
  /\ iexec noword 50 (fresh (progof ex_t) 2) [97; 98]%N = Val (None, fresh (progof ex_t) 2).
Proof. split; [repeat split; cbn; lia|]. split; [repeat split|]. split; vm_compute; reflexivity. Qed.
(* a class: [a-z]+ *)
Example C74_class_used : pattern (Plus (Ranges [(97, 122)]%N) false) /\ iexec noword 50 (fresh (progof (Plus (Ranges [(97, 122)]%N) false)) 1) [104; 105]%N = Val (Some [(Some 0, Some 2)], fresh (progof (Plus (Ranges [(97, 122)]%N) false)) 1).
Proof. split; [|vm_compute; reflexivity]. split; cbn; [split; [discriminate|]|]; repeat constructor; cbn; lia. Qed.

(* (a*?)* never returns, on any string *)
Definition hang_t : ast := Star (Cap 1 (Star (Chr 97) true)) false.
Lemma hang_loop isword s fuel : forall k g q n, k <= fuel -> stepall isword (progof hang_t) s k 0 0 (Some 0) (mkthr 1 g) q n = Thang.
Proof.
  induction fuel as [|fuel IH]; intros k g q n K; [assert (k = 0) as -> by lia; reflexivity|].
  destruct k as [|[|[|[|[|k]]]]]; try reflexivity. cbn [stepall]. cbn. apply IH. lia.
Qed.
Theorem C74_hang_refuted : exists t, pattern t /\ compile t <> None /\ forall isword s, matchat isword t s 0 0 /\ forall fuel, iexec isword fuel (fresh (progof t) 2) s = Hung.
Proof.
  exists hang_t. split; [repeat split; cbn; lia|]. split; [vm_compute; discriminate|]. intros isword s. split; [exists nogroups; constructor|].
  intros fuel. unfold iexec, runre, run. cbn [prog nmatch nthr fresh Nat.ltb Nat.leb]. destruct fuel as [|fuel]; [reflexivity|]. cbn [rounds]. cbn [Z.ltb Z.compare Z.add]. cbn [round].
  assert (E : stepall isword (progof hang_t) s (S fuel) 0 (ip (mkthr 0 (repeat (None, None) 16))) None (mkthr 0 (repeat (None, None) 16)) [] 1 = Thang).
  { cbn [stepall]. cbn. eapply hang_loop. reflexivity. }
  rewrite E. reflexivity.
Qed.
(* \> aborts on the empty string *)
Theorem C74_eow_refuted : exists t, pattern t /\ forall isword fuel, 4 <= fuel -> iexec isword fuel (fresh (progof t) 1) [] = Aborted.
Proof. exists Eow. split; [repeat split|]. intros isword fuel L. destruct fuel as [|[|[|[|fuel]]]]; try lia. reflexivity. Qed.

(* ---- C75: search ---- *)
Lemma searchfrom_ok isword t P nm s fuel : pattern t -> compile t = Some P -> forall k i r re', searchfrom isword fuel (fresh P nm) s k i = Val (r, re') ->
  re' = fresh P nm /\
  match r with
  | None => forall i', i <= i' < i + k -> forall j, ~ matchat isword t (skipn i' s) 0 j
  | Some (i0, gs) => i <= i0 < i + k /\ (forall i', i <= i' < i0 -> forall j, ~ matchat isword t (skipn i' s) 0 j) /\
      exists j g, matches isword encoded (skipn i0 s) (Cap 0 t) 0 nogroups j g /\ gs = firstn nm g /\ forall j', matchat isword t (skipn i0 s) 0 j' -> j' <= j
  end.
Proof.
  intros (O & X) C. induction k as [|k IH]; intros i r re' E; cbn [searchfrom] in E; [injection E as <- <-; split; auto; lia|].
  unfold runre in E. cbn [prog nmatch nthr fresh] in E. destruct (run isword P (skipn i s) fuel false nm 0) as [[th|] n| |] eqn:R; try discriminate; apply (run_ok isword t P O C) in R.
  - injection E as <- <-. split; auto. split; [lia|]. split; [lia|]. destruct R as (e & Le & M & _ & Mx). exists e, (mgroup th). split; [apply exact_ok; auto|]. split; auto.
    intros j' M'. apply matchat_iff in M' as (g & g' & M'); auto. eapply Mx; eauto.
  - destruct R as (-> & _ & R). destruct (IH _ _ _ E) as (-> & Y). split; auto.
    assert (N0 : forall j, ~ matchat isword t (skipn i s) 0 j) by (intros j M; apply matchat_iff in M as (g & g' & M); auto; eapply R; eauto).
    destruct r as [[i0 gs]|].
    + destruct Y as (Li & Nb & Y). split; [lia|]. split; auto. intros i' Hi. destruct (Nat.eq_dec i' i) as [->|]; auto. apply Nb. lia.
    + intros i' Hi. destruct (Nat.eq_dec i' i) as [->|]; auto. apply Y. lia.
Qed.
(* for patterns without anchors: search finds the longest match at the first position of the string, before its end,
   where there is one, with the groups of one way of matching there (relative to that position) *)
Theorem C75_search_partial : forall isword t P nm fuel s r re', pattern t -> noanchor t -> compile t = Some P ->
  search isword fuel (fresh P nm) s = Val (r, re') ->
  re' = fresh P nm /\
  match r with
  | None => forall i j, i < length s -> ~ matchat isword t s i j
  | Some (i, gs) => i < length s /\ (forall i' j, i' < i -> ~ matchat isword t s i' j) /\
      exists j g, matchat isword t s i (i + j) /\ (forall j', matchat isword t s i j' -> j' <= i + j) /\
        matches isword encoded (skipn i s) (Cap 0 t) 0 nogroups j g /\ gs = firstn nm g
  end.
Proof.
  intros isword t P nm fuel s r re' Pt Na C E. destruct (searchfrom_ok isword t P nm s fuel Pt C _ _ _ _ E) as (-> & Y). split; auto.
  assert (Pos : forall i j, i < length s -> matchat isword t s i j -> i <= j /\ matchat isword t (skipn i s) 0 (j - i)).
  { intros i j Li (g & M). assert (Li2 : i <= length s) by lia. destruct (skip_from _ _ _ i _ _ _ _ _ Li2 M Na (le_n i)) as (Le & _). split; auto. apply matchat_skip; auto. replace (i + (j - i)) with j by lia. exists g; auto. }
  destruct r as [[i gs]|].
  - destruct Y as (Li & Nb & j & g & M & Eg & Mx). split; [lia|]. split.
    + intros i' j' Hi M'. destruct (Pos i' j' ltac:(lia) M') as (_ & M2). eapply Nb; [|eauto]. lia.
    + exists j, g. assert (M0 : matchat isword t (skipn i s) 0 j) by (inversion M as [| | | | | | | | | |? ? ? ? ? ? M1| | | |]; subst; eapply matches_any; eauto).
      split; [apply matchat_skip; auto; lia|]. split; [|auto]. intros j' M'. destruct (Pos i j' ltac:(lia) M') as (Le & M2). specialize (Mx _ M2). lia.
  - intros i j Hi M. destruct (Pos _ _ Hi M) as (_ & M2). eapply (Y i); [lia|eauto].
Qed.
Theorem C75_returns_partial : forall isword t P nm s, pattern t -> loopsok t -> haseow t = false -> nm <= 16 -> compile t = Some P ->
  exists F, forall fuel, F <= fuel -> exists r, search isword fuel (fresh P nm) s = Val (r, fresh P nm).
Proof.
  intros isword t P nm s (O & X) Lo He Nm C. unfold search. generalize (length s) at 1, 0. intros k. induction k as [|k IH]; intros i; [exists 0; intros; cbn; eauto|].
  destruct (run_total isword t P O C (skipn i s) false nm Lo ltac:(auto) Nm) as (F1 & H1). destruct (IH (i + 1)) as (F2 & H2). exists (F1 + F2). intros fuel Hf.
  destruct (H1 fuel ltac:(lia)) as (b & n & R). cbn [searchfrom]. unfold runre. cbn [prog nmatch nthr fresh]. rewrite R. apply (run_ok isword t P O C) in R. destruct b; [eauto|]. destruct R as (-> & _). apply H2. lia.
Qed.
Print Assumptions C75_search_partial.
Print Assumptions C75_returns_partial.
(* a+ in "baa" *)
Definition ex_s : ast := Plus (Chr 97) false.
Example C75_used : pattern ex_s /\ noanchor ex_s /\ search noword 50 (fresh (progof ex_s) 1) [98; 97; 97]%N = Val (Some (1, [(Some 0, Some 2)]), fresh (progof ex_s) 1).
Proof. split; [repeat split; cbn; lia|]. split; [exact I|]. vm_compute. reflexivity. Qed.
(* a* matches the empty string, which search does not find at the end *)
Theorem C75_empty_refuted : exists t s, pattern t /\ noanchor t /\ matchat noword t s 0 0 /\ search noword 50 (fresh (progof t) 1) s = Val (None, fresh (progof t) 1).
Proof. exists (Star (Chr 97) false), []. split; [repeat split; cbn; lia|]. split; [exact I|]. split; [exists nogroups; constructor|]. vm_compute. reflexivity. Qed.
(* ^b is found in "ab", where it matches nowhere *)
Theorem C75_bol_refuted : exists t s i gs, pattern t /\ search noword 50 (fresh (progof t) 1) s = Val (Some (i, gs), fresh (progof t) 1) /\ forall i j, ~ matchat noword t s i j.
Proof.
  exists (Cat Bol (Chr 98)), [97; 98]%N, 1, [(Some 0, Some 1)]. split; [repeat split; cbn; lia|]. split; [vm_compute; reflexivity|].
  intros i j (g & M). inversion M as [| |a b i0 g0 k g1 j0 g2 M1 M2| | | | | | | | | | | |]; subst. inversion M1 as [| | | | | | | | | | |i1 g3 B| | |]; subst. inversion M2 as [| | | | | | | |c i2 g4 St| | | | | |]; subst. cbn in St. apply stands_cons in St as [E _].
  destruct B as [->|(j & -> & B)]; [cbn in E; discriminate|]. destruct j as [|[|j]]; cbn in B; try discriminate.
Qed.
(* the indices isearch returns are not indices of the string searched: b in "ab" is reported at 0 *)
Theorem C75_index_refuted : exists t s lo hi, pattern t /\ noanchor t /\ isearch noword 50 (fresh (progof t) 1) s = Val (Some [(Some lo, Some hi)], fresh (progof t) 1) /\ ~ matchat noword t s lo hi.
Proof.
  exists (Chr 98), [97; 98]%N, 0, 1. split; [repeat split; cbn; lia|]. split; [exact I|]. split; [vm_compute; reflexivity|].
  intros (g & M). inversion M as [| | | | | | | |c i2 g4 St| | | | | |]; subst. cbn in St. apply stands_cons in St as [E _]. discriminate.
Qed.
Print Assumptions C74_compiles.
Print Assumptions C74_hang_refuted.
Print Assumptions C74_eow_refuted.
Print Assumptions C75_empty_refuted.
Print Assumptions C75_bol_refuted.
Print Assumptions C75_index_refuted.
