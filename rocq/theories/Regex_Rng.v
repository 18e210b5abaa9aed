(* The code generated for a character class. *)
From Verif Require Import Base Regex_Model Regex_Spec Regex_Comp.
Open Scope nat_scope.

Fixpoint tsum (l : list (N * N * trie)) : nat := match l with [] => 0 | (_, t) :: l => rangeprogsize t + tsum l end.
Lemma progsize_eq e sub : rangeprogsize (Node e sub) = (match sub with [] => 0 | _ => 2 * length sub - 1 + tsum sub end) + (if e then 1 else 0).
Proof.
  reflexivity.
Qed.
Lemma tsum_app a b : tsum (a ++ b) = tsum a + tsum b.
Proof. induction a as [|[p t] a IH]; cbn; [auto|]. rewrite IH. lia. Qed.
Definition gsize sub := 2 * length sub - 1 + tsum sub.
Definition allfull (sub : list (N * N * trie)) : Prop := forall a b t, In (a, b, t) sub -> exists k, full k t.

Lemma split_half {A} (l : list A) : 2 <= length l -> let n := length l / 2 in
  firstn n l <> [] /\ skipn n l <> [] /\ length (firstn n l) + length (skipn n l) = length l.
Proof.
  intros L n. assert (0 < n < length l). { unfold n. split; [apply Nat.div_str_pos; lia|apply Nat.div_lt; lia]. }
  clearbody n.
  split; [intros E; apply (f_equal (@length A)) in E; rewrite firstn_length in E; change (length (@nil A)) with 0 in E; lia|].
  split; [intros E; apply (f_equal (@length A)) in E; rewrite skipn_length in E; change (length (@nil A)) with 0 in E; lia|]. rewrite firstn_length, skipn_length. lia.
Qed.
Lemma allfull_sub (l l' : list (N * N * trie)) : allfull l -> (forall x, In x l' -> In x l) -> allfull l'.
Proof. intros A S a b t I. eapply A, S, I. Qed.
Lemma in_firstn {A} n (l : list A) x : In x (firstn n l) -> In x l.
Proof. intros I. rewrite <- (firstn_skipn n l). apply in_or_app. auto. Qed.
Lemma in_skipn {A} n (l : list A) x : In x (skipn n l) -> In x l.
Proof. intros I. rewrite <- (firstn_skipn n l). apply in_or_app. auto. Qed.
Lemma full_leaf k e sub : full k (Node e sub) -> (e = true /\ sub = [] /\ k = 0) \/ (e = false /\ sub <> [] /\ allfull sub).
Proof.
  destruct k; cbn; [tauto|]. intros (-> & N & F). right. split; auto. split; auto. intros a b t I. exists k. eauto.
Qed.

Lemma rangegen_some fuel : forall sub pc fin, sub <> [] -> allfull sub -> gsize sub < fuel -> exists c, rangegen fuel sub pc fin = Some c /\ length c = gsize sub.
Proof.
  induction fuel as [|fuel IH]; intros sub pc fin Ne Al G; [lia|]. cbn [rangegen].
  destruct sub as [|[[a b] [e sub']] [|y rest]]; [congruence| |].
  - destruct (Al a b (Node e sub') (or_introl eq_refl)) as (k & F). apply full_leaf in F as [(-> & -> & _)|(-> & Ns & As)].
    + eexists. split; [reflexivity|reflexivity].
    + assert (Gs : gsize [(a, b, Node false sub')] = 1 + gsize sub').
      { unfold gsize at 1. cbn [length tsum]. rewrite progsize_eq. unfold gsize. destruct sub'; [congruence|]. lia. }
      destruct (IH sub' (pc + 1) fin Ns As) as (c & -> & L); [lia|]. eexists. split; [reflexivity|]. cbn [length]. lia.
  - set (sub := (a, b, Node e sub') :: y :: rest) in *. assert (L2 : 2 <= length sub) by (unfold sub; cbn; lia). clearbody sub.
    pose proof (split_half sub L2) as (N1 & N2 & Ls). cbn zeta in *. set (n := length sub / 2) in *. clearbody n.
    assert (Ts : tsum sub = tsum (firstn n sub) + tsum (skipn n sub)) by (rewrite <- tsum_app, firstn_skipn; reflexivity).
    assert (Ln1 : 0 < length (firstn n sub)) by (destruct (firstn n sub); [congruence|cbn; lia]). assert (Ln2 : 0 < length (skipn n sub)) by (destruct (skipn n sub); [congruence|cbn; lia]).
    assert (Gg : gsize sub = 1 + gsize (firstn n sub) + gsize (skipn n sub)) by (unfold gsize; lia).
    destruct (IH (firstn n sub) (pc + 1) fin N1) as (c1 & E1 & L1); [eapply allfull_sub; [eauto|apply in_firstn]|lia|]. rewrite E1.
    destruct (IH (skipn n sub) (pc + 1 + length c1) fin N2) as (c2 & E2 & L2'); [eapply allfull_sub; [eauto|apply in_skipn]|lia|]. rewrite E2.
    eexists. split; [reflexivity|]. cbn [length]. rewrite app_length. lia.
Qed.

(* ---- genranges ---- *)
Definition classok (rl : list (N * N)) : Prop := rl <> [] /\ Forall rangeok rl.
Lemma genranges_some rl pc : classok rl -> exists c, genranges rl pc = Some c.
Proof.
  intros (Ne & Ok). unfold genranges. destruct (rtinsertall_ok (concat (map rangeparts rl)) [] ltac:(intros ? ? ? []) (parts_ok rl Ok)) as (sub & E & Ro & Nn & _).
  rewrite E. destruct (rangegen_some (rangeprogsize (Node false sub) + 2) sub pc (rangeprogsize (Node false sub) + pc)) as (c & -> & _).
  - apply Nn. left. apply parts_nonempty; auto.
  - intros a b t I. eexists. eapply Ro; eauto.
  - rewrite progsize_eq. unfold gsize. destruct sub; cbn; lia.
  - eauto.
Qed.
Lemma genranges_ok rl pc c : classok rl -> genranges rl pc = Some c ->
  exists fuel sub, rangegen fuel sub pc (pc + length c) = Some c /\ sub <> [] /\ allfull sub /\ forall w, lang w (Node false sub) <-> bytecls rl w.
Proof.
  intros (Ne & Ok). unfold genranges. destruct (rtinsertall_ok (concat (map rangeparts rl)) [] ltac:(intros ? ? ? []) (parts_ok rl Ok)) as (sub & E & Ro & Nn & La).
  rewrite E. intros G. assert (Ns : sub <> []) by (apply Nn; left; apply parts_nonempty; auto). assert (Al : allfull sub) by (intros a b t I; eexists; eapply Ro; eauto).
  destruct (rangegen_some (rangeprogsize (Node false sub) + 2) sub pc (rangeprogsize (Node false sub) + pc)) as (c' & E' & L'); auto.
  { rewrite progsize_eq. unfold gsize. destruct sub; cbn; lia. }
  rewrite E' in G. injection G as ->. exists (rangeprogsize (Node false sub) + 2), sub. split.
  - rewrite <- E'. f_equal. rewrite L', progsize_eq. unfold gsize. destruct sub; [congruence|]. lia.
  - split; auto. split; auto. intros w. rewrite La. unfold bytecls. split; [intros [X|X]; auto|auto]. destruct w; cbn in X; [discriminate|]. destruct X as (? & ? & ? & [] & _).
Qed.

Section Machine.
Variable isword : list N -> bool.
Variable P : list inst.
Variable s : list N.
Notation path := (path isword P s).
Notation reach := (reach isword P s).
Notation placed := (placed P).

Lemma rangegen_complete fuel : forall sub pc fin c a b t x w i g, rangegen fuel sub pc fin = Some c -> placed pc c -> allfull sub ->
  In (a, b, t) sub -> (a <= x <= b)%N -> lang w t -> stands s i (x :: w) -> reach (pc, i, g) (fin, i + length (x :: w), g).
Proof.
  induction fuel as [|fuel IH]; intros sub pc fin c a b t x w i g R Pl Al I X L St; [discriminate|]. cbn [rangegen] in R.
  destruct sub as [|[[a0 b0] [e sub']] [|y rest]]; [destruct I| |].
  - destruct I as [I|[]]. inversion I; subst a0 b0 t. clear I. destruct (Al a b (Node e sub') (or_introl eq_refl)) as (k & F).
    apply stands_cons in St as [N1 St]. apply full_leaf in F as [(-> & -> & _)|(-> & Ns & As)].
    + injection R as <-. apply placed_cons in Pl as [P1 Pl]. apply placed_cons in Pl as [P2 _].
      destruct w; cbn in L; [|destruct L as (? & ? & ? & [] & _)].
      eapply reach_trans; [apply reach_step; eapply c_range; eauto|]. apply reach_step. eapply c_jmp; eauto.
    + destruct (rangegen fuel sub' (pc + 1) fin) as [c'|] eqn:R'; [|discriminate]. injection R as <-. apply placed_cons in Pl as [P1 Pl].
      destruct w as [|x' w]; cbn in L; [discriminate|]. destruct L as (a' & b' & t' & I' & X' & L').
      eapply reach_trans; [apply reach_step; eapply c_range; eauto|].
      replace (i + length (x :: x' :: w)) with (i + 1 + length (x' :: w)) by (cbn; lia). eapply IH; eauto.
  - set (sub := (a0, b0, Node e sub') :: y :: rest) in *. clearbody sub. set (n := length sub / 2) in *. clearbody n.
    destruct (rangegen fuel (firstn n sub) (pc + 1) fin) as [c1|] eqn:R1; [|discriminate].
    destruct (rangegen fuel (skipn n sub) (pc + 1 + length c1) fin) as [c2|] eqn:R2; [|discriminate]. injection R as <-.
    apply placed_cons in Pl as [Pf Pl]. apply placed_app in Pl as [Pl1 Pl2].
    rewrite <- (firstn_skipn n sub) in I. apply in_app_or in I as [I|I].
    + eapply reach_trans; [apply reach_step; eapply c_forkl; eauto|]. eapply IH; eauto. eapply allfull_sub; [eauto|apply in_firstn].
    + eapply reach_trans; [apply reach_step; eapply c_forkr; eauto|]. eapply IH; eauto. eapply allfull_sub; [eauto|apply in_skipn].
Qed.
Lemma rangegen_sound fuel : forall sub pc fin c n i g F j g', rangegen fuel sub pc fin = Some c -> placed pc c -> sub <> [] -> allfull sub ->
  path n (pc, i, g) (F, j, g') -> ~ (pc <= F < pc + length c) ->
  exists a b t x w m, In (a, b, t) sub /\ (a <= x <= b)%N /\ lang w t /\ stands s i (x :: w) /\ m <= n /\ path m (fin, i + length (x :: w), g) (F, j, g').
Proof.
  induction fuel as [|fuel IH]; intros sub pc fin c n i g F j g' R Pl Ne Al Pa Nf; [discriminate|]. cbn [rangegen] in R.
  destruct sub as [|[[a0 b0] [e sub']] [|y rest]]; [congruence| |].
  - destruct (Al a0 b0 (Node e sub') (or_introl eq_refl)) as (k & Fu). apply full_leaf in Fu as [(-> & -> & _)|(-> & Ns & As)].
    + injection R as <-. apply placed_cons in Pl as [P1 Pl]. apply placed_cons in Pl as [P2 _]. cbn [length] in Nf.
      apply path_first in Pa as (n' & c1 & -> & St & Pa'); [|lia]. destruct (step_range _ _ _ _ _ _ _ _ _ P1 St) as (b & H5 & H6 & ->).
      apply path_first in Pa' as (n2 & c2 & -> & St2 & Pa2); [|lia]. rewrite (step_jmp _ _ _ _ _ _ _ _ P2 St2) in Pa2.
      exists a0, b0, (Node true []), b, [], n2. split; [left; auto|]. split; [auto|]. split; [reflexivity|].
      assert (i < length s) by (apply nth_error_Some; congruence). split; [apply stands_cons; split; auto; apply stands_nil; lia|]. split; [lia|]. exact Pa2.
    + destruct (rangegen fuel sub' (pc + 1) fin) as [c'|] eqn:R'; [|discriminate]. injection R as <-. apply placed_cons in Pl as [P1 Pl]. cbn [length] in Nf.
      apply path_first in Pa as (n' & c1 & -> & St & Pa'); [|lia]. destruct (step_range _ _ _ _ _ _ _ _ _ P1 St) as (b & H5 & H6 & ->).
      destruct (fun z => IH _ _ _ _ _ _ _ _ _ _ R' Pl Ns As Pa' z) as (a & b' & t & x & w & m & I & X & L & Sd & M & Pm); [lia|].
      exists a0, b0, (Node false sub'), b, (x :: w), m. split; [left; auto|]. split; [auto|]. split; [cbn; eauto 8|].
      split; [apply stands_cons; auto|]. split; [lia|]. replace (i + length (b :: x :: w)) with (i + 1 + length (x :: w)) by (cbn; lia). exact Pm.
  - set (sub := (a0, b0, Node e sub') :: y :: rest) in *. assert (L2 : 2 <= length sub) by (unfold sub; cbn; lia). clearbody sub.
    pose proof (split_half sub L2) as (N1 & N2 & _). cbn zeta in *. set (h := length sub / 2) in *. clearbody h.
    destruct (rangegen fuel (firstn h sub) (pc + 1) fin) as [c1|] eqn:R1; [|discriminate].
    destruct (rangegen fuel (skipn h sub) (pc + 1 + length c1) fin) as [c2|] eqn:R2; [|discriminate]. injection R as <-. cbn [length] in Nf. rewrite app_length in Nf.
    apply placed_cons in Pl as [Pf Pl]. apply placed_app in Pl as [Pl1 Pl2].
    apply path_first in Pa as (n' & cc & -> & St & Pa'); [|lia]. destruct (step_fork _ _ _ _ _ _ _ _ _ Pf St) as [-> | ->].
    + assert (Ah : allfull (firstn h sub)) by (eapply allfull_sub; [eauto|apply in_firstn]).
      destruct (IH _ _ _ _ _ _ _ _ _ _ R1 Pl1 N1 Ah Pa') as (a & b' & t & x & w & m & I & X & L & Sd & M & Pm); [lia|].
      exists a, b', t, x, w, m. split; [eapply in_firstn; eauto|]. intuition lia.
    + assert (Ah : allfull (skipn h sub)) by (eapply allfull_sub; [eauto|apply in_skipn]).
      destruct (IH _ _ _ _ _ _ _ _ _ _ R2 Pl2 N2 Ah Pa') as (a & b' & t & x & w & m & I & X & L & Sd & M & Pm); [lia|].
      exists a, b', t, x, w, m. split; [eapply in_skipn; eauto|]. intuition lia.
Qed.

Lemma ranges_reach rl pc c w i g : classok rl -> genranges rl pc = Some c -> placed pc c -> bytecls rl w -> stands s i w -> reach (pc, i, g) (pc + length c, i + length w, g).
Proof.
  intros Ok G Pl B St. destruct (genranges_ok _ _ _ Ok G) as (fuel & sub & R & Ns & Al & La). apply La in B. destruct w as [|x w]; cbn in B; [discriminate|].
  destruct B as (a & b & t & I & X & L). eapply rangegen_complete; eauto.
Qed.
Lemma ranges_path rl pc c n i g F j g' : classok rl -> genranges rl pc = Some c -> placed pc c -> path n (pc, i, g) (F, j, g') -> ~ (pc <= F < pc + length c) ->
  exists w m, m <= n /\ bytecls rl w /\ stands s i w /\ path m (pc + length c, i + length w, g) (F, j, g').
Proof.
  intros Ok G Pl Pa Nf. destruct (genranges_ok _ _ _ Ok G) as (fuel & sub & R & Ns & Al & La).
  destruct (rangegen_sound _ _ _ _ _ _ _ _ _ _ _ R Pl Ns Al Pa Nf) as (a & b & t & x & w & m & I & X & L & St & M & Pm).
  exists (x :: w), m. split; auto. split; [apply La; cbn; eauto 8|]. auto.
Qed.
End Machine.
