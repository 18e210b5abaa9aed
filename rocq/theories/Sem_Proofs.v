From Verif Require Import Base Conc Sem_Spec Sem_Model.
Open Scope Z_scope.

Definition slp p := match p with Asleep => true | _ => false end.
Definition awk p := match p with WLoad | WCas _ | WWait => true | _ => false end.
Definition wdec p := match p with WDec => true | _ => false end.
Definition padd p := match p with PAdd => true | _ => false end.
Definition ovf p := match p with PChk v _ => v =? W32 - 1 | _ => false end.
Definition pend p := match p with PWake => true | PChk v n => negb (v =? W32 - 1) && (n >? 0) | _ => false end.
Definition okp p := match p with WCas v | TCas v => 1 <= v < W32 | PChk v n => 0 <= v < W32 | _ => True end.
Definition cz (f : pc -> bool) (ps : list pc) : Z := Z.of_nat (count f ps).
Definition zb (b : bool) : Z := if b then 1 else 0.

Lemma total_app f a b : total f (a ++ b) = total f a + total f b.
Proof. induction a as [|e a IH]; cbn [total app fold_right]; [reflexivity|]. unfold total in *. lia. Qed.
Lemma cz_nonneg f ps : 0 <= cz f ps.
Proof. unfold cz. lia. Qed.
Lemma cz_upd f ps t p p' : nth_error ps t = Some p -> cz f (upd ps t p') = cz f ps - zb (f p) + zb (f p').
Proof. intros H. unfold cz. pose proof (count_upd f ps t p p' H). unfold zb, b2n in *. destruct (f p), (f p'); lia. Qed.
Lemma cz_pos f ps t p : nth_error ps t = Some p -> f p = true -> 1 <= cz f ps.
Proof. intros. pose proof (count_pos f ps t p H H0). unfold cz. lia. Qed.
Lemma cz_len ps : cz slp ps + cz awk ps + cz wdec ps + cz ovf ps <= Z.of_nat (length ps).
Proof. unfold cz. induction ps as [|p ps IH]; cbn [length]; [reflexivity|]. rewrite !count_cons. destruct p; cbn [slp awk wdec ovf b2n]; try lia. destruct (_ =? _); cbn [b2n]; lia. Qed.

Record Inv (init : Z) (c : sem * list pc) (es : list event) : Prop := mkInv {
  i_val : 0 <= val (fst c) < W32;
  i_cons : total got es + cz wdec (snd c) + val (fst c) + cz padd (snd c) <= init + total put es;
  i_nw : nw (fst c) = cz slp (snd c) + cz awk (snd c) + cz wdec (snd c) + cz ovf (snd c);
  i_len : Z.of_nat (length (snd c)) < W32;
  i_okp : forall t p, nth_error (snd c) t = Some p -> okp p;
  i_slp : 0 < cz slp (snd c) -> val (fst c) <= cz pend (snd c) + cz awk (snd c) }.

Lemma inv_upd init s ps es t p p' s' e : Inv init (s, ps) es -> nth_error ps t = Some p -> okp p' ->
  0 <= val s' < W32 ->
  total got e + zb (wdec p') - zb (wdec p) + val s' - val s + zb (padd p') - zb (padd p) <= total put e ->
  nw s' = nw s + zb (slp p') - zb (slp p) + zb (awk p') - zb (awk p) + zb (wdec p') - zb (wdec p) + zb (ovf p') - zb (ovf p) ->
  (0 < cz slp ps - zb (slp p) + zb (slp p') -> val s <= cz pend ps + cz awk ps \/ slp p' = true -> val s' <= cz pend ps - zb (pend p) + zb (pend p') + cz awk ps - zb (awk p) + zb (awk p')) ->
  Inv init (s', upd ps t p') (es ++ e).
Proof.
  intros I Ht Ok V C N S. destruct I. cbn [fst snd] in *.
  constructor; cbn [fst snd]; rewrite ?(cz_upd _ ps t p p' Ht), ?total_app, ?upd_length; auto; try lia.
  - intros u q Hu. apply nth_error_upd_inv in Hu as [(Eu & ->)|(Ne & Hu)]; auto. eapply i_okp0; eauto.
  - intros G. cut (val s' <= cz pend ps - zb (pend p) + zb (pend p') + cz awk ps - zb (awk p) + zb (awk p')); [lia|]. apply S; auto. destruct (slp p') eqn:E; auto. left. apply i_slp0. unfold zb in G. destruct (slp p); lia.
Qed.

Ltac sim := cbn [val nw okp wdec padd slp awk ovf pend zb total fold_right got put].
Lemma W32_pos : 0 < W32. Proof. reflexivity. Qed.
Lemma padd_val v n : 0 <= v < W32 -> 0 <= n < W32 - 1 -> let w := (v + W32 * n + 1) mod (W32 * W32) in
  w mod W32 = (if v =? W32 - 1 then 0 else v + 1) /\ w / W32 = (if v =? W32 - 1 then n + 1 else n).
Proof.
  intros Hv Hn w. pose proof W32_pos. assert (E : w = v + W32 * n + 1) by (apply Z.mod_small; nia). rewrite E.
  destruct (Z.eqb_spec v (W32 - 1)) as [->|Ne].
  - replace (W32 - 1 + W32 * n + 1) with ((n + 1) * W32) by ring. rewrite Z.mod_mul, Z.div_mul by lia. auto.
  - replace (v + W32 * n + 1) with ((v + 1) + n * W32) by ring. rewrite Z.mod_add, Z.div_add by lia.
    rewrite Z.mod_small, Z.div_small by lia. lia.
Qed.

Definition DInv init c es := dead (fst c) = true \/ Inv init c es.
Lemma step_inv init c es e c' : DInv init c es -> step fsem c e c' -> DInv init c' (es ++ e).
Proof.
  assert (PD : forall t p s p' s' f ev, act t p s = Some (p', s', f, ev) -> dead s = false).
  { intros t p s p' s' f ev. unfold act. destruct (dead s); congruence. }
  intros DI H. destruct H as [s ps t p p' e Ht Hc|s ps t p p' s' e Ht Ha|s ps t p p' s' a e j q Ht Ha Hj Nj Hq|s ps t p p' s' a e Ht Ha Hn|s ps t p p' s' a e Ht Ha|s ps t p a Ht Ha];
    cbn [fsem Conc.act Conc.calls] in *.
  - unfold calls in Hc. destruct (dead s) eqn:D; [contradiction|]. destruct DI as [X|I]; [cbn in X; congruence|]. right.
    pose proof (i_val _ _ _ I) as V. cbn [fst] in V.
    destruct p; try contradiction. destruct Hc as [X|[X|[X|[]]]]; injection X as <- <-; eapply inv_upd; eauto; sim; auto; try lia.
  - pose proof (PD _ _ _ _ _ _ _ Ha) as D. destruct DI as [X|I]; [cbn in X; congruence|].
    pose proof (i_val _ _ _ I) as V. pose proof (i_nw _ _ _ I) as N. pose proof (i_len _ _ _ I) as L. pose proof (i_okp _ _ _ I t p Ht) as O. cbn [fst snd] in *.
    pose proof (cz_len ps) as CL. pose proof (cz_nonneg slp ps). pose proof (cz_nonneg awk ps). pose proof (cz_nonneg wdec ps). pose proof (cz_nonneg ovf ps). pose proof (cz_nonneg pend ps).
    unfold act in Ha. rewrite D in Ha. destruct p; try discriminate.
    + (* WInc *) injection Ha as <- <- <-. right.
      assert (CL2 : cz slp ps + cz awk ps + cz wdec ps + cz ovf ps < Z.of_nat (length ps)).
      { pose proof (cz_len (upd ps t WLoad)) as X. rewrite upd_length, !(cz_upd _ _ _ _ _ Ht) in X. cbn [slp awk wdec ovf zb] in X. lia. }
      eapply inv_upd; eauto; sim; auto; try lia. rewrite Z.mod_small; lia.
    + injection Ha as <- <- <-. right. destruct (Z.gtb_spec (val s) 0); eapply inv_upd; eauto; sim; auto; try lia.
    + destruct (Z.eqb_spec (val s) v); injection Ha as <- <- <-; right; cbn in O; eapply inv_upd; eauto; sim; auto; try lia.
    + injection Ha as <- <- <-. right. destruct (Z.eqb_spec (val s) 0); eapply inv_upd; eauto; sim; auto; try lia.
      intros _ _. pose proof (cz_pos awk ps t _ Ht eq_refl). lia.
    + injection Ha as <- <- <-. right. pose proof (cz_pos wdec ps t _ Ht eq_refl). eapply inv_upd; eauto; sim; auto; try lia. rewrite Z.mod_small; lia.
    + destruct (Z.eqb_spec (val s) 0); injection Ha as <- <- <-; right; eapply inv_upd; eauto; sim; auto; try lia.
    + destruct (Z.eqb_spec (val s) v); injection Ha as <- <- <-; right; cbn in O; eapply inv_upd; eauto; sim; auto; try lia.
    + assert (CL2 : cz slp ps + cz awk ps + cz wdec ps + cz ovf ps < Z.of_nat (length ps)).
      { pose proof (cz_len (upd ps t WLoad)) as X. rewrite upd_length, !(cz_upd _ _ _ _ _ Ht) in X. cbn [slp awk wdec ovf zb] in X. lia. }
      assert (Hn : 0 <= nw s < W32 - 1) by lia. destruct (padd_val (val s) (nw s) V Hn) as [E1 E2].
      cbv zeta in Ha. injection Ha as <- <- <-. right. match goal with |- Inv _ (mksem_ ?a ?b _, _) _ => replace a with (if val s =? W32 - 1 then 0 else val s + 1); replace b with (if val s =? W32 - 1 then nw s + 1 else nw s) end. pose proof W32_pos.
      { eapply inv_upd; eauto; sim; try lia;
          try (destruct (Z.eqb_spec (val s) (W32 - 1)); cbn [zb]; lia).
        intros G [K|K]; [|discriminate]. destruct (Z.eqb_spec (val s) (W32 - 1)); cbn [negb andb zb]; [lia|].
        destruct (Z.gtb_spec (nw s) 0); cbn [zb]; lia. }
    + destruct (Z.eqb_spec v (W32 - 1)) as [E|E]; injection Ha as <- <- <-; [left; reflexivity|right].
      assert (Q : (v =? W32 - 1) = false) by now apply Z.eqb_neq.
      destruct (n >? 0) eqn:G; eapply inv_upd; eauto; sim; rewrite ?Q, ?G; cbn [negb andb zb]; try lia; try exact Logic.I; auto.
  - pose proof (PD _ _ _ _ _ _ _ Ha) as D. destruct DI as [X|I]; [cbn in X; congruence|].
    unfold act in Ha. rewrite D in Ha. destruct p; try discriminate Ha;
      try (match type of Ha with context [if ?b then _ else _] => destruct b; discriminate Ha end).
    injection Ha as <- <- <- <-. right. destruct q; try discriminate. cbn [woken fsem].
    pose proof (i_val _ _ _ I) as V. cbn [fst] in V.
    pose proof (cz_nonneg pend ps). pose proof (cz_nonneg awk ps).
    rewrite upd_comm by auto. replace (es ++ []) with ((es ++ []) ++ []) by (now rewrite !app_nil_r).
    pose proof (cz_pos pend ps t _ Ht eq_refl).
    assert (I2 : Inv init (s, upd ps j WLoad) (es ++ [])).
    { eapply inv_upd; eauto; sim; auto; try lia. }
    eapply inv_upd; [exact I2|rewrite nth_error_upd_ne by auto; exact Ht| | | | |]; sim; auto; try lia.
    rewrite !(cz_upd _ _ _ _ _ Hj). cbn [slp awk pend zb]. intros G _. pose proof (i_slp _ _ _ I) as S. cbn [fst snd] in S. lia.
  - pose proof (PD _ _ _ _ _ _ _ Ha) as D. destruct DI as [X|I]; [cbn in X; congruence|].
    unfold act in Ha. rewrite D in Ha. destruct p; try discriminate Ha;
      try (match type of Ha with context [if ?b then _ else _] => destruct b; discriminate Ha end).
    injection Ha as <- <- <- <-. right.
    pose proof (i_val _ _ _ I) as V. cbn [fst] in V.
    assert (Z0 : cz slp ps = 0).
    { unfold cz. cut (count slp ps = 0%nat); [lia|]. destruct (count slp ps) eqn:E; auto. exfalso.
      assert (X : (0 < count slp ps)%nat) by lia. apply count_ex in X as (j & q & Hj & Hq). destruct q; try discriminate.
      assert (j <> t) by congruence. pose proof (Hn j _ Hj H) as Y. discriminate Y. }
    eapply inv_upd; eauto; sim; auto; try lia.
  - exfalso. unfold act in Ha. destruct (dead s); [discriminate|]. destruct p; try discriminate Ha;
      match type of Ha with context [if ?b then _ else _] => destruct b; discriminate Ha end.
  - destruct DI as [X|I]; [left; exact X|right]. cbn in Ha. destruct p; try discriminate. cbn [woken fsem].
    pose proof (i_val _ _ _ I) as V. cbn [fst] in V. eapply inv_upd; eauto; sim; auto; try lia.
Qed.
Lemma start_inv n v : 0 <= v < W32 -> Z.of_nat n < W32 -> Inv v (start n v) [].
Proof.
  intros V N. unfold start. constructor; cbn [fst snd val nw mksem total fold_right]; unfold cz; rewrite ?count_repeat by reflexivity; rewrite ?repeat_length; auto; try lia.
  intros t p H. apply nth_error_repeat_inv in H. subst. exact I.
Qed.
Lemma run_inv_ init c e c' : run fsem c e c' -> forall es, DInv init c es -> DInv init c' (es ++ e).
Proof.
  intros R. induction R as [c|c e c1 e2 c2 H R IH]; intros es I; [now rewrite app_nil_r|]. rewrite app_assoc. apply IH. eapply step_inv; eauto.
Qed.

(* conservation needs no bound on the number of threads and holds even while the process is being aborted *)
Record CInv (init : Z) (c : sem * list pc) (es : list event) : Prop := mkCInv {
  c_val : 0 <= val (fst c) < W32;
  c_cons : total got es + cz wdec (snd c) + val (fst c) + cz padd (snd c) <= init + total put es;
  c_okp : forall t p, nth_error (snd c) t = Some p -> okp p }.
Lemma cinv_upd init s ps es t p p' s' e : CInv init (s, ps) es -> nth_error ps t = Some p -> okp p' -> 0 <= val s' < W32 ->
  total got e + zb (wdec p') - zb (wdec p) + val s' - val s + zb (padd p') - zb (padd p) <= total put e ->
  CInv init (s', upd ps t p') (es ++ e).
Proof.
  intros I Ht Ok V C. destruct I. cbn [fst snd] in *.
  constructor; cbn [fst snd]; rewrite ?(cz_upd _ ps t p p' Ht), ?total_app; auto; try lia.
  intros u q Hu. apply nth_error_upd_inv in Hu as [(Eu & ->)|(Ne & Hu)]; auto. eapply c_okp0; eauto.
Qed.
Lemma padd_le v n : 0 <= v < W32 -> 0 <= (v + W32 * n + 1) mod (W32 * W32) mod W32 <= v + 1 /\ (v + W32 * n + 1) mod (W32 * W32) mod W32 < W32.
Proof.
  intros V. pose proof W32_pos. rewrite <- Znumtheory.Zmod_div_mod by (try lia; exists W32; reflexivity).
  replace (v + W32 * n + 1) with ((v + 1) + n * W32) by ring. rewrite Z.mod_add by lia.
  pose proof (Z.mod_pos_bound (v + 1) W32 ltac:(lia)). pose proof (Z.mod_le (v + 1) W32 ltac:(lia) ltac:(lia)). lia.
Qed.
Lemma cinv_act init s ps es t p p' s' f e : CInv init (s, ps) es -> nth_error ps t = Some p ->
  (act t p s = Some (p', s', f, e) \/ sact t p s = Some (p', s', f, e)) -> CInv init (s', upd ps t p') (es ++ e).
Proof.
  intros I Ht Ha. pose proof (c_val _ _ _ I) as V. pose proof (c_okp _ _ _ I t p Ht) as O. cbn [fst snd] in *. pose proof W32_pos.
  destruct Ha as [Ha|Ha]; unfold act, sact in Ha; (destruct (dead s); [discriminate|]); destruct p; try discriminate Ha;
    try (match type of Ha with context [if ?b then _ else _] => destruct b eqn:G end);
    injection Ha as <- <- <- <-; cbn [okp] in O;
    eapply cinv_upd; eauto; cbn [val okp wdec padd zb total fold_right got put]; auto; try lia;
    try (pose proof (padd_le (val s) (nw s) V); lia);
    try (pose proof (Z.mod_pos_bound (val s + 1) W32 ltac:(lia)); pose proof (Z.mod_le (val s + 1) W32 ltac:(lia) ltac:(lia)); lia).
  - match goal with |- context [?x mod W32] => assert (0 <= x mod W32 <= val s + 1 /\ x mod W32 < W32) by exact (padd_le (val s) (nw s) V) end. lia.
  - destruct (n >? 0); exact Logic.I.
  - destruct (n >? 0); cbn [wdec padd zb]; lia.
Qed.
Lemma cstep_inv init y c es e c' : y = fsem \/ y = ssem -> CInv init c es -> step y c e c' -> CInv init c' (es ++ e).
Proof.
  intros Y I H. assert (CA : forall t p s p' s' f e, Conc.act y t p s = Some (p', s', f, e) -> act t p s = Some (p', s', f, e) \/ sact t p s = Some (p', s', f, e)).
  { intros. destruct Y; subst y; auto. }
  assert (CC : forall t p s, Conc.calls y t p s = calls t p s) by (intros; destruct Y; subst y; reflexivity).
  assert (WK : forall s ps es t p a, CInv init (s, ps) es -> nth_error ps t = Some p -> sleeps_on y a p = true -> CInv init (s, upd ps t (woken y p)) (es ++ [])).
  { intros s ps es0 t p a I0 Ht S. pose proof (c_val _ _ _ I0). destruct Y; subst y; cbn in *; destruct p; try discriminate. eapply cinv_upd; eauto; sim; auto; lia. }
  destruct H as [s ps t p p' e Ht Hc|s ps t p p' s' e Ht Ha|s ps t p p' s' a e j q Ht Ha Hj Nj Hq|s ps t p p' s' a e Ht Ha Hn|s ps t p p' s' a e Ht Ha|s ps t p a Ht Ha].
  - rewrite CC in Hc. unfold calls in Hc. destruct (dead s) eqn:D; [contradiction|].
    pose proof (c_val _ _ _ I) as V. cbn [fst] in V.
    destruct p; try contradiction. destruct Hc as [X|[X|[X|[]]]]; injection X as <- <-; eapply cinv_upd; eauto; sim; auto; try lia.
  - eapply cinv_act; eauto.
  - pose proof (cinv_act _ _ _ _ _ _ _ _ _ _ I Ht (CA _ _ _ _ _ _ _ Ha)) as I2. rewrite <- (app_nil_r (es ++ e)).
    eapply WK; eauto. rewrite nth_error_upd_ne by auto. exact Hj.
  - eapply cinv_act; eauto.
  - exfalso. destruct (CA _ _ _ _ _ _ _ Ha) as [X|X]; unfold act, sact in X; (destruct (dead s); [discriminate|]); destruct p; try discriminate X;
      match type of X with context [if ?b then _ else _] => destruct b; discriminate X end.
  - apply (WK _ _ _ _ _ 0%nat I Ht). unfold sleeps_on. destruct Y; subst y; cbn in *; destruct p; try discriminate. injection Ha as <-. reflexivity.
Qed.
Lemma crun_inv init y c e c' : y = fsem \/ y = ssem -> run y c e c' -> forall es, CInv init c es -> CInv init c' (es ++ e).
Proof.
  intros Y R. induction R as [c|c e c1 e2 c2 H R IH]; intros es I; [now rewrite app_nil_r|]. rewrite app_assoc. apply IH. eapply cstep_inv; eauto.
Qed.
Lemma start_cinv n v : 0 <= v < W32 -> CInv v (start n v) [].
Proof.
  intros V. unfold start. constructor; cbn [fst snd val nw mksem total fold_right]; unfold cz; rewrite ?count_repeat by reflexivity; auto; try lia.
  intros t p H. apply nth_error_repeat_inv in H. subst. exact I.
Qed.

(* ---------- progress ---------- *)
Lemma load_run s ps t : dead s = false -> 0 < val s -> nth_error ps t = Some WLoad -> exists c, irun fsem (s, ps) [SemRet t] c.
Proof.
  intros D V H. eexists. change [SemRet t] with ([] ++ [] ++ [SemRet t] ++ []).
  eapply irun_act; [exact H|cbn; unfold act; rewrite D; reflexivity|]. replace (val s >? 0) with true by lia.
  eapply irun_act; [eapply nth_error_upd_same; exact H|cbn; unfold act; rewrite D, Z.eqb_refl; reflexivity|].
  eapply irun_act; [eapply nth_error_upd_same, nth_error_upd_same; exact H|cbn; reflexivity|]. constructor.
Qed.
Lemma awk_run s ps t p : dead s = false -> 0 < val s -> nth_error ps t = Some p -> awk p = true -> exists c, irun fsem (s, ps) [SemRet t] c.
Proof.
  intros D V H A. destruct p; try discriminate.
  - apply load_run; auto.
  - destruct (Z.eq_dec (val s) v) as [E|E].
    + eexists. change [SemRet t] with ([] ++ [SemRet t] ++ []).
      eapply irun_act; [exact H|cbn; unfold act; rewrite D, E, Z.eqb_refl; reflexivity|].
      eapply irun_act; [eapply nth_error_upd_same; exact H|cbn; reflexivity|]. constructor.
    + destruct (load_run s (upd ps t WLoad) t D V) as [c R]; [eapply nth_error_upd_same; exact H|]. exists c.
      change [SemRet t] with ([] ++ [SemRet t]). eapply irun_act; [exact H|cbn; unfold act; rewrite D|exact R].
      destruct (Z.eqb_spec (val s) v); [congruence|reflexivity].
  - destruct (load_run s (upd ps t WLoad) t D V) as [c R]; [eapply nth_error_upd_same; exact H|]. exists c.
    change [SemRet t] with ([] ++ [SemRet t]). eapply irun_act; [exact H|cbn; unfold act; rewrite D|exact R].
    destruct (Z.eqb_spec (val s) 0); [lia|reflexivity].
Qed.
Lemma pwake_run s ps t j : dead s = false -> 0 < val s -> nth_error ps t = Some PWake -> nth_error ps j = Some Asleep -> exists c, irun fsem (s, ps) [SemRet j] c.
Proof.
  intros D V H Hj. assert (Ne : j <> t) by congruence.
  destruct (load_run s (upd (upd ps t Idle) j WLoad) j D V) as [c R]. { apply nth_error_upd_same with Asleep. rewrite nth_error_upd_ne; auto. }
  exists c. change [SemRet j] with ([] ++ [SemRet j]). econstructor; [|exact R].
  eapply (istep_wake fsem s ps t PWake Idle s 0%nat [] j Asleep); auto. cbn. unfold act. now rewrite D.
Qed.
Lemma progress init s ps es : Inv init (s, ps) es -> dead s = false -> 0 < val s -> 0 < cz slp ps -> exists u c, irun fsem (s, ps) [SemRet u] c.
Proof.
  intros I D V L. pose proof (i_slp _ _ _ I L) as X. cbn [fst snd] in X.
  assert (Y : (0 < count awk ps)%nat \/ (0 < count pend ps)%nat) by (unfold cz in X; lia).
  destruct Y as [Y|Y]; apply count_ex in Y as (t & p & Ht & Hp).
  - exists t. eapply awk_run; eauto.
  - assert (L2 : (0 < count slp ps)%nat) by (unfold cz in L; lia). apply count_ex in L2 as (j & q & Hj & Hq). destruct q; try discriminate Hq.
    exists j. destruct p; try discriminate.
    + cbn [pend] in Hp. apply andb_prop in Hp as [P1 P2]. assert (Ne : t <> j) by congruence.
      destruct (pwake_run s (upd ps t PWake) t j D V) as [c R]. { eapply nth_error_upd_same; exact Ht. } { rewrite nth_error_upd_ne; auto. }
      exists c. change [SemRet j] with ([] ++ [SemRet j]). eapply irun_act; [exact Ht|cbn [Conc.act fsem]; unfold act; rewrite D|exact R].
      apply negb_true_iff in P1. rewrite P1, P2. reflexivity.
    + eapply pwake_run; eauto.
Qed.
