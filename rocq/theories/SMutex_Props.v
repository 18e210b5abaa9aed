(* C39 for the spinning mutex: exclusion for clients that only unlock what they hold; without that discipline it fails. *)
From Verif Require Import Base Conc Mutex_Spec SMutex_Model.
Open Scope Z_scope.

Definition usr p := match p with Rest h | LockCas h | TryCas h => h | Unlk => false end.
Definition inside p := match p with Unlk => true | p => usr p end.
Record Inv (c : Z * list pc) (h : option nat) : Prop := mkInv {
  i_st : fst c = 0 \/ fst c = 1;
  i_in : count inside (snd c) = b2n (negb (fst c =? 0));
  i_usr : forall t p, nth_error (snd c) t = Some p -> (usr p = true <-> h = Some t);
  i_hr : forall t, h = Some t -> (t < length (snd c))%nat }.
Lemma start_inv n : Inv (start n) None.
Proof.
  unfold start. constructor; cbn [fst snd]; auto; try discriminate; [now rewrite count_repeat|].
  intros t p H. apply nth_error_repeat_inv in H. subst. cbn. split; discriminate.
Qed.
Lemma inv_upd s ps h t p p' s' h' : Inv (s, ps) h -> nth_error ps t = Some p -> s' = 0 \/ s' = 1 ->
  (b2n (inside p') + b2n (negb (s =? 0)%Z) = b2n (inside p) + b2n (negb (s' =? 0)%Z))%nat ->
  (h' = if usr p' then Some t else if usr p then None else h) -> (usr p' = true -> usr p = true \/ h = None) -> Inv (s', upd ps t p') h'.
Proof.
  intros I Ht S C H K. assert (L : (t < length ps)%nat) by (apply nth_error_Some; congruence). constructor; cbn [fst snd]; auto.
  - pose proof (count_upd inside ps t p p' Ht). pose proof (i_in _ _ I). cbn [fst snd] in *. lia.
  - intros u q Hu. apply nth_error_upd_inv in Hu as [(Eu & -> )|(Ne & Hu)]; [subst u|].
    + rewrite H. destruct (usr p'); [tauto|]. destruct (usr p) eqn:E; [split; discriminate|].
      rewrite <- (i_usr _ _ I t p Ht). split; congruence.
    + pose proof (i_usr _ _ I u q Hu) as U. pose proof (i_usr _ _ I t p Ht) as V. rewrite H. rewrite U.
      destruct (usr p').
      * destruct (K eq_refl) as [G| ->]; [|split; congruence]. apply V in G. rewrite G. split; congruence.
      * destruct (usr p); [|tauto]. rewrite (proj1 V eq_refl). split; congruence.
  - intros u Hu. rewrite upd_length. rewrite H in Hu. destruct (usr p'); [injection Hu as <-; auto|]. destruct (usr p); [discriminate|].
    apply (i_hr _ _ I u Hu).
Qed.
Lemma step_inv c h e c' : Inv c h -> step (smutex true) c e c' -> exclusive h e /\ Inv c' (fold_left holder e h).
Proof.
  intros I H. destruct H as [s ps t p p' e Ht Hc|s ps t p p' s' e Ht Ha|s ps t p p' s' a e j q Ht Ha|s ps t p p' s' a e Ht Ha|s ps t p p' s' a e Ht Ha|s ps t p a Ht Ha];
    cbn [calls SMutex_Model.calls smutex Conc.act Conc.calls] in *.
  - destruct p as [hd| | |]; cbn in Hc; try contradiction.
    assert (X : (p', e) = (LockCas hd, []) \/ (p', e) = (TryCas hd, []) \/ hd = true /\ (p', e) = (Unlk, [UnlockCall t])).
    { destruct Hc as [Hc|[Hc|Hc]]; auto. destruct hd; cbn in Hc; [|contradiction]. destruct Hc as [Hc|[]]. auto. }
    destruct X as [X|[X|[Hh X]]]; injection X as -> ->; cbn [exclusive fold_left].
    + split; auto. refine (inv_upd _ _ _ _ _ _ _ _ I Ht _ _ _ _); cbn; auto; [apply I|]. destruct hd; auto. now apply (i_usr _ _ I t _ Ht).
    + split; auto. refine (inv_upd _ _ _ _ _ _ _ _ I Ht _ _ _ _); cbn; auto; [apply I|]. destruct hd; auto. now apply (i_usr _ _ I t _ Ht).
    + subst hd. pose proof (proj1 (i_usr _ _ I t _ Ht) eq_refl) as Hh. subst h. cbn [holder]. rewrite Nat.eqb_refl. split; auto.
      refine (inv_upd _ _ _ _ _ _ _ _ I Ht _ _ _ _); cbn; auto; try apply I; try discriminate.
  - pose proof (i_in _ _ I) as C. cbn [fst snd] in C. pose proof (i_st _ _ I) as S. cbn [fst] in S.
    assert (N : s = 0 -> h = None).
    { intros ->. destruct h as [u|]; auto. exfalso. pose proof (i_hr _ _ I u eq_refl) as L. cbn in L. destruct (nth_error ps u) as [q|] eqn:Eq.
      - pose proof (proj2 (i_usr _ _ I u q Eq) eq_refl) as U. assert (inside q = true) by (destruct q; auto).
        pose proof (count_pos inside ps u q Eq H). cbn in C. lia.
      - apply nth_error_None in Eq. lia. }
    destruct p as [hd|hd|hd|]; cbn in Ha; try discriminate.
    + destruct (Z.eqb_spec s 0) as [E|E]; injection Ha as <- <- <-; cbn [exclusive fold_left holder].
      * split; [split; auto|]. subst s. rewrite (N eq_refl) in *. refine (inv_upd _ _ _ _ _ _ _ _ I Ht _ _ _ _); cbn; auto.
        destruct hd; auto. pose proof (count_pos inside ps t _ Ht eq_refl). cbn in C. lia.
      * split; auto. refine (inv_upd _ _ _ _ _ _ _ _ I Ht _ _ _ _); cbn; auto.
        destruct hd; auto. now apply (i_usr _ _ I t _ Ht).
    + destruct (Z.eqb_spec s 0) as [E|E]; injection Ha as <- <- <-; cbn [exclusive fold_left holder].
      * split; [split; auto|]. subst s. rewrite (N eq_refl) in *. refine (inv_upd _ _ _ _ _ _ _ _ I Ht _ _ _ _); cbn; auto.
        destruct hd; auto. pose proof (count_pos inside ps t _ Ht eq_refl). cbn in C. lia.
      * split; auto. refine (inv_upd _ _ _ _ _ _ _ _ I Ht _ _ _ _); cbn; auto.
        destruct hd; auto. now apply (i_usr _ _ I t _ Ht).
    + injection Ha as <- <- <-. cbn [exclusive fold_left]. split; auto. refine (inv_upd _ _ _ _ _ _ _ _ I Ht _ _ _ _); cbn; auto.
      pose proof (count_pos inside ps t _ Ht eq_refl). destruct (negb (s =? 0)%Z); cbn in *; lia.
  - destruct p as [hd|hd|hd|]; cbn in Ha; try discriminate; destruct (s =? 0); discriminate.
  - destruct p as [hd|hd|hd|]; cbn in Ha; try discriminate; destruct (s =? 0); discriminate.
  - destruct p as [hd|hd|hd|]; cbn in Ha; try discriminate; destruct (s =? 0); discriminate.
  - discriminate.
Qed.
Lemma exclusive_app : forall a b h, exclusive h (a ++ b) <-> exclusive h a /\ exclusive (fold_left holder a h) b.
Proof. induction a as [|e a IH]; intros b h; cbn [app exclusive fold_left]; [tauto|]. rewrite IH. tauto. Qed.
Lemma run_inv_ c es c' : run (smutex true) c es c' -> forall h, Inv c h -> exclusive h es /\ Inv c' (fold_left holder es h).
Proof.
  intros R. induction R as [c|c e c1 es c2 H R IH]; intros h I; [cbn; auto|].
  destruct (step_inv _ _ _ _ I H) as [A B]. destruct (IH _ B) as [A2 B2]. rewrite exclusive_app, fold_left_app. auto.
Qed.
(* Any number of threads, any schedule, any calls by clients that unlock only what they hold. *)
Theorem C39_spin_exclusive n es c : run (smutex true) (start n) es c -> exclusive None es.
Proof. intros R. apply (run_inv_ _ _ _ R None (start_inv n)). Qed.
Print Assumptions C39_spin_exclusive.
(* Without that discipline exclusion is lost: nothing stops another thread's unlock. *)
Theorem C39_spin_misuse_refuted : exists n es c, run (smutex false) (start n) es c /\ ~ exclusive None es.
Proof.
  exists 2%nat, [LockRet 0; UnlockCall 1; LockRet 1], (1, [Rest true; Rest true]). split; [|cbn; intros (_ & _ & H & _); discriminate].
  change [LockRet 0; UnlockCall 1; LockRet 1] with ([] ++ [LockRet 0] ++ [UnlockCall 1] ++ [] ++ [] ++ [LockRet 1] ++ []).
  eapply run_cons; [apply (step_call (smutex false) 0 [Rest false; Rest false] 0 (Rest false) (LockCas false)); cbn; auto|].
  eapply run_cons; [eapply (step_act (smutex false) _ _ 0); cbn; reflexivity|].
  eapply run_cons; [eapply (step_call (smutex false) _ _ 1 (Rest false) Unlk); cbn; auto|].
  eapply run_cons; [eapply (step_act (smutex false) _ _ 1); cbn; reflexivity|].
  eapply run_cons; [eapply (step_call (smutex false) _ _ 1 (Rest false) (LockCas false)); cbn; auto|].
  eapply run_cons; [eapply (step_act (smutex false) _ _ 1); cbn; reflexivity|]. constructor.
Qed.
Print Assumptions C39_spin_misuse_refuted.
(* Two threads take turns under the discipline: a non-trivial run of the kind C39_spin_exclusive ranges over. *)
Example C39_spin_example : exists c, run (smutex true) (start 2) [LockRet 0; UnlockCall 0; LockRet 1] c.
Proof.
  eexists. change [LockRet 0; UnlockCall 0; LockRet 1] with ([] ++ [LockRet 0] ++ [] ++ [] ++ [UnlockCall 0] ++ [] ++ [LockRet 1] ++ []).
  eapply run_cons; [apply (step_call (smutex true) 0 [Rest false; Rest false] 0 (Rest false) (LockCas false)); cbn; auto|].
  eapply run_cons; [eapply (step_act (smutex true) _ _ 0); cbn; reflexivity|].
  eapply run_cons; [eapply (step_call (smutex true) _ _ 1 (Rest false) (LockCas false)); cbn; auto|].
  eapply run_cons; [eapply (step_act (smutex true) _ _ 1); cbn; reflexivity|].
  eapply run_cons; [eapply (step_call (smutex true) _ _ 0 (Rest true) Unlk); cbn; auto|].
  eapply run_cons; [eapply (step_act (smutex true) _ _ 0); cbn; reflexivity|].
  eapply run_cons; [eapply (step_act (smutex true) _ _ 1); cbn; reflexivity|]. constructor.
Qed.
