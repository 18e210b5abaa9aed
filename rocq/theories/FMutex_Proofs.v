From Verif Require Import Base Conc Mutex_Spec FMutex_Model.
Open Scope Z_scope.

(* between acquiring and releasing the state word; _owner is this thread; the caller holds the mutex;
   on the way to waking a sleeper or to marking the mutex contended *)
Definition own p := match p with Held | LockChk true | TryCas true | CtdChk true | UnlkChk true | UnlkClr => true | _ => false end.
Definition crit p := own p || match p with SetOwn | TrySet | UnlkXchg => true | _ => false end.
Definition usr p := match p with Held | LockChk true | TryCas true | CtdChk true => true | _ => false end.
Definition slp p := match p with Asleep => true | _ => false end.
Definition waker p := match p with UnlkWake | Xchg => true | _ => false end.
Definition okc p := match p with Spin _ c => c = 1 \/ c = 2 | Loop c => c = 0 \/ c = 1 \/ c = 2 | _ => True end.
(* a Loop about to take the mutex counts as inside *)
Definition inside p := crit p || match p with Loop c => c =? 0 | _ => false end.

Record Inv (c : mutex * list pc) (h : option nat) : Prop := mkInv {
  i_st : st (fst c) = 0 \/ st (fst c) = 1 \/ st (fst c) = 2;
  i_in : count inside (snd c) = b2n (negb (st (fst c) =? 0));
  i_own : forall t p, nth_error (snd c) t = Some p -> (own p = true <-> owner (fst c) = Some t);
  i_usr : forall t p, nth_error (snd c) t = Some p -> (usr p = true <-> h = Some t);
  i_hr : forall t, h = Some t -> (t < length (snd c))%nat;
  i_or : forall t, owner (fst c) = Some t -> (t < length (snd c))%nat;
  i_okc : forall t p, nth_error (snd c) t = Some p -> okc p;
  i_slp : (0 < count slp (snd c))%nat -> st (fst c) = 2 \/ (0 < count waker (snd c))%nat }.
Definition DInv c h := dead (fst c) = true \/ Inv c h.

Lemma start_inv n : Inv (start n) None.
Proof.
  unfold start. constructor; cbn [fst snd st owner mkmtx]; auto; try discriminate.
  - now rewrite count_repeat.
  - intros t p H. apply nth_error_repeat_inv in H. subst. cbn. split; discriminate.
  - intros t p H. apply nth_error_repeat_inv in H. subst. cbn. split; discriminate.
  - intros t p H. apply nth_error_repeat_inv in H. subst. exact I.
  - rewrite count_repeat by reflexivity. lia.
Qed.

Lemma owned_by_spec m t : owned_by m t = true <-> owner m = Some t.
Proof. unfold owned_by. destruct (owner m) as [u|]; [|split; discriminate]. destruct (Nat.eqb_spec u t); subst; split; congruence. Qed.
Lemma own_unique c h t u p q : Inv c h -> nth_error (snd c) t = Some p -> inside p = true -> nth_error (snd c) u = Some q -> inside q = true -> t = u.
Proof.
  intros I Ht Hp Hu Hq. destruct (Nat.eq_dec t u); auto. pose proof (count_two inside _ t p u q Ht Hp Hu Hq n). rewrite (i_in _ _ I) in H.
  destruct (negb _); cbn in H; lia.
Qed.
Lemma own_inside p : own p = true -> inside p = true.
Proof. unfold inside, crit. intros ->. reflexivity. Qed.
Lemma usr_own p : usr p = true -> own p = true.
Proof. destruct p as [| |[]| | | | | | |[]| |[]| | | |[]]; cbn; congruence. Qed.

Definition okev (h : option nat) (e : list event) : Prop := exclusive h e.
Definition after (h : option nat) (e : list event) : option nat := fold_left holder e h.

(* a step of thread t that changes its own state to p' and the mutex to m' *)
Lemma inv_upd m ps h t p p' m' h' : Inv (m, ps) h -> nth_error ps t = Some p ->
  st m' = 0 \/ st m' = 1 \/ st m' = 2 ->
  (b2n (inside p') + b2n (negb (st m =? 0)%Z) = b2n (inside p) + b2n (negb (st m' =? 0)%Z))%nat ->
  (owner m' = if own p' then Some t else if own p then None else owner m) ->
  (own p' = true -> own p = true \/ owner m = None) ->
  (h' = if usr p' then Some t else if usr p then None else h) ->
  (usr p' = true -> usr p = true \/ h = None) -> okc p' ->
  ((0 < count slp (upd ps t p'))%nat -> st m' = 2 \/ (0 < count waker (upd ps t p'))%nat) ->
  Inv (m', upd ps t p') h'.
Proof.
  intros I Hp S C O O1 U U1 K W. destruct I as [Ist Iin Iown Iusr Ihr Ior Iokc Islp]; cbn [fst snd] in *.
  pose proof (count_upd inside ps t p p' Hp) as CU. assert (Tl : (t < length ps)%nat) by (apply nth_error_Some; congruence).
  constructor; cbn [fst snd]; rewrite ?upd_length; auto.
  - lia.
  - intros u q Hu. apply nth_error_upd_inv in Hu as [[<- ->]|[Ne Hu]].
    + rewrite O. destruct (own p') eqn:Q; [tauto|]. split; [discriminate|]. destruct (own p) eqn:Q2; [discriminate|]. intros E. apply (Iown t p Hp) in E. congruence.
    + rewrite (Iown u q Hu), O. destruct (own p') eqn:Q.
      * destruct (O1 eq_refl) as [G|G]; [apply (Iown t p Hp) in G|]; rewrite G; split; congruence.
      * destruct (own p) eqn:Q2; [|tauto]. apply (Iown t p Hp) in Q2. rewrite Q2. split; congruence.
  - intros u q Hu. apply nth_error_upd_inv in Hu as [[<- ->]|[Ne Hu]].
    + rewrite U. destruct (usr p') eqn:Q; [tauto|]. split; [discriminate|]. destruct (usr p) eqn:Q2; [discriminate|]. intros E. apply (Iusr t p Hp) in E. congruence.
    + rewrite (Iusr u q Hu), U. destruct (usr p') eqn:Q.
      * destruct (U1 eq_refl) as [G|G]; [apply (Iusr t p Hp) in G|]; rewrite G; split; congruence.
      * destruct (usr p) eqn:Q2; [|tauto]. apply (Iusr t p Hp) in Q2. rewrite Q2. split; congruence.
  - intros u E. rewrite U in E. destruct (usr p'); [congruence|]. destruct (usr p); [discriminate|auto].
  - intros u E. rewrite O in E. destruct (own p'); [congruence|]. destruct (own p); [discriminate|auto].
  - intros u q Hu. apply nth_error_upd_inv in Hu as [[<- ->]|[Ne Hu]]; eauto.
Qed.

(* facts about the thread that moves *)
Lemma free_none m ps h : Inv (m, ps) h -> st m = 0 -> owner m = None /\ h = None.
Proof.
  intros I E. assert (Z0 : count inside ps = 0%nat) by (pose proof (i_in _ _ I) as X; cbn [fst snd] in X; rewrite E in X; exact X). split.
  - destruct (owner m) as [u|] eqn:O; auto. pose proof (i_or _ _ I u O) as L. cbn [snd] in L. destruct (nth_error ps u) as [q|] eqn:Q; [|apply nth_error_None in Q; lia].
    assert (own q = true) by (now apply (i_own _ _ I u q Q)). pose proof (count_zero inside ps u q Z0 Q). rewrite own_inside in *; congruence.
  - destruct h as [u|] eqn:O; auto. pose proof (i_hr _ _ I u eq_refl) as L. cbn [snd] in L. destruct (nth_error ps u) as [q|] eqn:Q; [|apply nth_error_None in Q; lia].
    assert (usr q = true) by (now apply (i_usr _ _ I u q Q)). pose proof (count_zero inside ps u q Z0 Q). rewrite own_inside in *; [congruence|now apply usr_own].
Qed.
Lemma inside_none m ps h t p : Inv (m, ps) h -> nth_error ps t = Some p -> inside p = true -> own p = false -> owner m = None /\ h = None.
Proof.
  intros I Hp Hi Ho. split.
  - destruct (owner m) as [u|] eqn:O; auto. pose proof (i_or _ _ I u O) as L. cbn [snd] in L. destruct (nth_error ps u) as [q|] eqn:Q; [|apply nth_error_None in Q; lia].
    assert (X : own q = true) by (now apply (i_own _ _ I u q Q)). assert (t = u) by (apply (own_unique _ _ t u p q I); auto using own_inside). congruence.
  - destruct h as [u|] eqn:O; auto. pose proof (i_hr _ _ I u eq_refl) as L. cbn [snd] in L. destruct (nth_error ps u) as [q|] eqn:Q; [|apply nth_error_None in Q; lia].
    assert (X : usr q = true) by (now apply (i_usr _ _ I u q Q)). assert (t = u) by (apply (own_unique _ _ t u p q I); auto using own_inside, usr_own). subst u.
    assert (q = p) by congruence. subst. apply usr_own in X. congruence.
Qed.

Ltac cnt ps t p p' Hp := pose proof (count_upd slp ps t p p' Hp); pose proof (count_upd waker ps t p p' Hp).
Lemma step_inv c h e c' : DInv c h -> step fmutex c e c' -> okev h e /\ DInv c' (after h e).
Proof.
  intros [D|I] Hs.
  - assert (e = [] /\ fst c' = fst c) as [-> Es].
    { inversion Hs; subst; cbn [fst] in *; auto.
      - cbn in H0. unfold calls in H0. rewrite D in H0. destruct H0.
      - cbn in H0. unfold act in H0. rewrite D in H0. discriminate.
      - cbn in H0. unfold act in H0. rewrite D in H0. discriminate.
      - cbn in H0. unfold act in H0. rewrite D in H0. discriminate.
      - cbn in H0. unfold act in H0. rewrite D in H0. discriminate. }
    split; [exact Logic.I|]. left. congruence.
  - destruct Hs as [m ps t p p' e Hp Hc|m ps t p p' m' e Hp Ha|m ps t p p' m' a e j q Hp Ha Hj Hjt Hq|m ps t p p' m' a e Hp Ha Hn|m ps t p p' m' a e Hp Ha|m ps t p a Hp Hs].
    + (* a call *)
      cbn in Hc. unfold calls in Hc. destruct (dead m); [destruct Hc|]. pose proof (i_slp _ _ I) as IS; cbn [fst snd] in IS.
      assert (HU : usr p = true <-> h = Some t) by (apply (i_usr _ _ I t p Hp)).
      assert (HO : own p = true <-> owner m = Some t) by (apply (i_own _ _ I t p Hp)).
      destruct p; cbn in Hc; try contradiction;
      repeat (destruct Hc as [Hc|Hc]; [injection Hc as <- <-|]); try contradiction; (split; [cbn; tauto|]); right;
      (eapply inv_upd; [exact I|exact Hp|apply (i_st _ _ I)|reflexivity|first [reflexivity|apply HO; reflexivity]|cbn; auto| |cbn; auto|exact Logic.I|]);
      try (intros; match goal with |- context[upd ps t ?x] => cnt ps t Idle x Hp || cnt ps t Held x Hp end; cbn -[count] in *; lia).
      all: cbn; auto; try (apply HU; reflexivity); try (rewrite (proj1 HU eq_refl), Nat.eqb_refl; reflexivity).
      destruct h as [u|]; auto. destruct (Nat.eqb_spec u t); auto. subst. cbn in HU. assert (false = true) by (now apply HU). discriminate.
    + (* an atomic step *)
      cbn in Ha. unfold act in Ha. destruct (dead m) eqn:Dm; [discriminate|]. pose proof (i_slp _ _ I) as IS; cbn [fst snd] in IS.
      assert (HU : usr p = true <-> h = Some t) by (apply (i_usr _ _ I t p Hp)).
      assert (HO : own p = true <-> owner m = Some t) by (apply (i_own _ _ I t p Hp)).
      pose proof (owned_by_spec m t) as OB. pose proof (i_okc _ _ I t p Hp) as OK. pose proof (i_st _ _ I) as IST. cbn [fst] in IST.
      pose proof (free_none m ps h I) as FN. pose proof (inside_none m ps h t p I Hp) as IN.
      assert (PU : inside p = true -> st m <> 0).
      { intros G E. pose proof (i_in _ _ I) as X. cbn [fst snd] in X. rewrite E in X. pose proof (count_pos inside ps t p Hp G). cbn in X. lia. }
      unfold Unlocked, Locked, Contended in *.
      destruct p as [| |hb|[|k] c| | |c| | |hb| |hb| | | |hb]; try discriminate;
      try (destruct (owned_by m t) eqn:Q); try (destruct (Z.eqb_spec (st m) 0) as [S0|S0]); try (destruct (Z.eqb_spec (st m) 2) as [S2|S2]);
      try (destruct (Z.eqb_spec c 0) as [C0|C0]); try (destruct (Z.eqb_spec c 1) as [C1|C1]); try destruct hb;
      injection Ha as <- <- <-; try (split; [exact Logic.I|left; reflexivity]).
      all: match goal with Hx : nth_error ?ps ?t = Some ?y |- context[upd ?ps ?t ?x] => cnt ps t y x Hx end.
      all: split; [cbn in *; intuition congruence|right].
      all: (eapply inv_upd; [exact I|exact Hp| | | | | | | |]); cbn -[count Z.eqb] in *; auto.
      all: try (intuition (congruence || lia)).
      all: repeat match goal with |- context[Z.eqb ?a ?b] => destruct (Z.eqb_spec a b) end; cbn [b2n negb]; intuition (congruence || lia).
    + (* a wake-up *)
      cbn in Ha. unfold act in Ha. destruct (dead m) eqn:Dm; [discriminate|].
      assert (p = UnlkWake /\ p' = Idle /\ m' = m /\ e = []) as (-> & -> & -> & ->).
      { destruct p as [| |hb|[|k] c| | |c| | |hb| |hb| | | |hb]; try discriminate; try (destruct (owned_by m t); discriminate); try (destruct (st m =? _); discriminate). injection Ha; auto. }
      destruct q; try discriminate. cbn [woken fmutex]. rewrite upd_comm by auto. split; [exact Logic.I|right].
      assert (I2 : Inv (m, upd ps j Xchg) h).
      { eapply inv_upd; [exact I|exact Hj|apply (i_st _ _ I)|reflexivity|reflexivity|cbn; discriminate|reflexivity|cbn; discriminate|exact Logic.I|].
        intros _. right. apply (count_pos waker _ j Xchg); auto. eapply nth_error_upd_same; eauto. }
      assert (Ht : nth_error (upd ps j Xchg) t = Some UnlkWake) by (rewrite nth_error_upd_ne; auto).
      eapply inv_upd; [exact I2|exact Ht|apply (i_st _ _ I)|reflexivity|reflexivity|cbn; discriminate|reflexivity|cbn; discriminate|exact Logic.I|].
      intros _. right. apply (count_pos waker _ j Xchg); auto. rewrite nth_error_upd_ne by auto. eapply nth_error_upd_same; eauto.
    + (* nobody to wake *)
      cbn in Ha. unfold act in Ha. destruct (dead m) eqn:Dm; [discriminate|].
      assert (p = UnlkWake /\ p' = Idle /\ m' = m /\ e = [] /\ a = 0%nat) as (-> & -> & -> & -> & ->).
      { destruct p as [| |hb|[|k] c| | |c| | |hb| |hb| | | |hb]; try discriminate; try (destruct (owned_by m t); discriminate); try (destruct (st m =? _); discriminate). injection Ha; auto. }
      split; [exact Logic.I|right].
      eapply inv_upd; [exact I|exact Hp|apply (i_st _ _ I)|reflexivity|reflexivity|cbn; discriminate|reflexivity|cbn; discriminate|exact Logic.I|].
      intros G. exfalso. apply count_ex in G as (j & q & Hj & Hq). apply nth_error_upd_inv in Hj as [[<- ->]|[Ne Hj]]; [discriminate|].
      specialize (Hn j q Hj (not_eq_sym Ne)). destruct q; discriminate.
    + cbn in Ha. unfold act in Ha. destruct (dead m) eqn:Dm; [discriminate|].
      exfalso. destruct p as [| |hb|[|k] c| | |c| | |hb| |hb| | | |hb]; try discriminate; try (destruct (owned_by m t); discriminate); try (destruct (st m =? _); discriminate).
    + (* spurious wake-up *)
      destruct p; try discriminate. cbn [woken fmutex]. split; [exact Logic.I|right].
      eapply inv_upd; [exact I|exact Hp|apply (i_st _ _ I)|reflexivity|reflexivity|cbn; discriminate|reflexivity|cbn; discriminate|exact Logic.I|].
      intros _. right. apply (count_pos waker _ t Xchg); auto. eapply nth_error_upd_same; eauto.
Qed.

Lemma exclusive_app h a b : exclusive h a -> exclusive (after h a) b -> exclusive h (a ++ b).
Proof. revert h; induction a as [|e a IH]; intros h; cbn; auto. intros [H1 H2] H3. split; auto. Qed.
Lemma run_exclusive c es c' : run fmutex c es c' -> forall h, DInv c h -> exclusive h es /\ DInv c' (after h es).
Proof.
  induction 1 as [c|c e c1 es c2 Hs _ IH]; intros h I; [split; [exact Logic.I|auto]|].
  destruct (step_inv c h e c1 I Hs) as [O I1]. destruct (IH _ I1) as [X I2]. split; [apply exclusive_app; auto|].
  unfold after in *. rewrite fold_left_app. exact I2.
Qed.

(* ---------- no lost wake-up ---------- *)
Definition acquires (e : event) : Prop := match e with LockRet _ | TryRet _ true => True | _ => False end.
Lemma istep_inv c h e c' : DInv c h -> istep fmutex c e c' -> okev h e /\ DInv c' (after h e).
Proof. intros I H. eapply step_inv; eauto using istep_step. Qed.

Lemma nth_upd_self (ps : list pc) t p q : nth_error ps t = Some p -> nth_error (upd ps t q) t = Some q.
Proof. apply nth_error_upd_same. Qed.
Lemma setown_run m ps t : dead m = false -> nth_error ps t = Some SetOwn -> exists c, irun fmutex (m, ps) [LockRet t] c.
Proof.
  intros D H. eexists. change [LockRet t] with ([LockRet t] ++ []). eapply irun_act; [exact H|cbn; unfold act; rewrite D; reflexivity|constructor].
Qed.
Lemma loop0_run m ps t : dead m = false -> nth_error ps t = Some (Loop 0) -> exists c, irun fmutex (m, ps) [LockRet t] c.
Proof.
  intros D H. destruct (setown_run m (upd ps t SetOwn) t D (nth_upd_self _ _ _ _ H)) as [c R]. exists c.
  change [LockRet t] with ([] ++ [LockRet t]). eapply irun_act; [exact H|cbn; unfold act; rewrite D; reflexivity|exact R].
Qed.
Lemma xchg_run m ps t : dead m = false -> st m = 0 -> nth_error ps t = Some Xchg -> exists c, irun fmutex (m, ps) [LockRet t] c.
Proof.
  intros D S H. destruct (loop0_run (set_st m Contended) (upd ps t (Loop 0)) t D (nth_upd_self _ _ _ _ H)) as [c R]. exists c.
  change [LockRet t] with ([] ++ [LockRet t]). eapply irun_act; [exact H|cbn; unfold act; rewrite D, S; reflexivity|exact R].
Qed.
Lemma free_progress m ps h : Inv (m, ps) h -> dead m = false -> st m = 0 -> (0 < count slp ps)%nat -> exists u c, irun fmutex (m, ps) [LockRet u] c.
Proof.
  intros I D S L. destruct (i_slp _ _ I L) as [X|W]; cbn [fst snd] in *; [lia|]. apply count_ex in W as (u & p & Hu & Hp).
  destruct p; try discriminate.
  - destruct (xchg_run m ps u D S Hu) as [c R]. eauto.
  - apply count_ex in L as (j & q & Hj & Hq). destruct q; try discriminate. assert (Ne : j <> u) by congruence.
    destruct (xchg_run m (upd (upd ps u Idle) j Xchg) j D S) as [c R].
    { apply nth_error_upd_same with Asleep. rewrite nth_error_upd_ne; auto. }
    exists j, c. change [LockRet j] with ([] ++ [LockRet j]). econstructor; [|exact R].
    eapply (istep_wake fmutex m ps u UnlkWake Idle m 0%nat [] j Asleep); auto. cbn. unfold act. now rewrite D.
Qed.
(* nobody's caller holds the mutex and somebody sleeps: without any new call, somebody acquires it *)
Lemma progress m ps : Inv (m, ps) None -> dead m = false -> (0 < count slp ps)%nat -> exists es e c, irun fmutex (m, ps) (es ++ [e]) c /\ es = [] /\ acquires e.
Proof.
  intros I D L. destruct (Z.eq_dec (st m) 0) as [S|S].
  { destruct (free_progress m ps None I D S L) as (u & c & R). exists [], (LockRet u), c. split; auto. cbn. auto. }
  assert (C : (0 < count inside ps)%nat).
  { pose proof (i_in _ _ I) as X. cbn [fst snd] in X. rewrite X. destruct (Z.eqb_spec (st m) 0); [congruence|]. cbn. lia. }
  assert (X : forall m2 ps2, DInv (m2, ps2) None -> dead m2 = false -> st m2 = 0 -> (0 < count slp ps2)%nat -> exists u c, irun fmutex (m2, ps2) [LockRet u] c).
  { intros m2 ps2 [G|G] D2 S2 L2; [cbn in G; congruence|]. eapply free_progress; eauto. }
  apply count_ex in C as (t & p & Ht & Hp). exists [].
  assert (U : usr p = true -> False) by (intros G; apply (i_usr _ _ I t p Ht) in G; discriminate).
  assert (UX : forall m1 ps1, DInv (m1, ps1) None -> dead m1 = false -> (0 < count slp ps1)%nat -> nth_error ps1 t = Some UnlkXchg -> exists u c, irun fmutex (m1, ps1) [LockRet u] c).
  { intros m1 ps1 I1 D1 L1 H1. set (p2 := if st m1 =? Contended then UnlkWake else Idle).
    assert (ST : istep fmutex (m1, ps1) [] (set_st m1 Unlocked, upd ps1 t p2)) by (eapply istep_act; [exact H1|cbn; unfold act; now rewrite D1]).
    destruct (istep_inv _ _ _ _ I1 ST) as [_ I2]. destruct (X (set_st m1 Unlocked) (upd ps1 t p2)) as (u & c & R); auto.
    - pose proof (count_upd slp ps1 t UnlkXchg p2 H1) as E. cbn [slp b2n] in E. assert (slp p2 = false) as Q by (unfold p2; destruct (_ =? _); reflexivity). rewrite Q in E. cbn [b2n] in E. lia.
    - exists u, c. change [LockRet u] with ([] ++ [LockRet u]). econstructor; eauto. }
  assert (UC : forall ps1, DInv (m, ps1) None -> (0 < count slp ps1)%nat -> nth_error ps1 t = Some UnlkClr -> exists u c, irun fmutex (m, ps1) [LockRet u] c).
  { intros ps1 I1 L1 H1.
    assert (ST : istep fmutex (m, ps1) [] (set_owner m None, upd ps1 t UnlkXchg)) by (eapply istep_act; [exact H1|cbn; unfold act; now rewrite D]).
    destruct (istep_inv _ _ _ _ I1 ST) as [_ I2]. destruct (UX (set_owner m None) (upd ps1 t UnlkXchg)) as (u & c & R); auto.
    - pose proof (count_upd slp ps1 t UnlkClr UnlkXchg H1) as E. cbn [slp b2n] in E. lia.
    - eapply nth_error_upd_same; eauto.
    - exists u, c. change [LockRet u] with ([] ++ [LockRet u]). econstructor; eauto. }
  destruct p as [| |[]|k c| | |c| | |[]| |[]| | | |[]]; try discriminate Hp; try (exfalso; apply U; reflexivity).
  - destruct (setown_run m ps t D Ht) as [c R]. exists (LockRet t), c. cbn. auto.
  - cbn in Hp. assert (c = 0) by lia. subst. destruct (loop0_run m ps t D Ht) as [c R]. exists (LockRet t), c. cbn. auto.
  - exists (TryRet t true), (set_owner m (Some t), upd ps t Held). cbn. split; auto. change [TryRet t true] with ([TryRet t true] ++ []).
    eapply irun_act; [exact Ht|cbn; unfold act; rewrite D; reflexivity|constructor].
  - assert (O : owner m = Some t) by (apply (i_own _ _ I t _ Ht); reflexivity).
    assert (ST : istep fmutex (m, ps) [] (m, upd ps t UnlkClr)).
    { eapply istep_act; [exact Ht|cbn; unfold act, owned_by; rewrite D, O, Nat.eqb_refl; reflexivity]. }
    destruct (istep_inv _ None _ _ (or_intror I) ST) as [_ I2]. destruct (UC (upd ps t UnlkClr)) as (u & c & R); auto.
    + pose proof (count_upd slp ps t _ UnlkClr Ht) as E. cbn [slp b2n] in E. lia.
    + eapply nth_error_upd_same; eauto.
    + exists (LockRet u), c. cbn. split; auto. change [LockRet u] with ([] ++ [LockRet u]). econstructor; eauto.
  - destruct (UC ps) as (u & c & R); auto; [right; auto|]. exists (LockRet u), c. cbn. auto.
  - destruct (UX m ps) as (u & c & R); auto; [right; auto|]. exists (LockRet u), c. cbn. auto.
Qed.
