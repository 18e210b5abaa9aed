(* C43 (exclusion), C49 (no waiter left asleep while the lock is free) and C50 (try operations do not wait) for
   readers-writer locks. *)
From Verif Require Import Base Conc Rw_Spec.
From Verif Require FRw_Model FRw_Proofs SRw_Model SRw_Proofs.
Open Scope Z_scope.

(* C43: any number of threads, nested read locks, any schedule, both futex behaviours: a read lock is granted only while no
   writer holds the lock, a write lock only while nobody does.  Clients only release read locks they hold. *)
Theorem C43_futex_exclusive timed n es c : run (FRw_Model.frw timed) (FRw_Model.start n) es c -> exclusive nobody es.
Proof. intros R. apply (FRw_Proofs.run_inv_ _ _ _ _ R nobody). right. apply FRw_Proofs.start_inv. Qed.
Print Assumptions C43_futex_exclusive.
(* The same for the lock built from mutexes (clients only release what they hold), also when the 32-bit reader count wraps. *)
Theorem C43_mutex_exclusive n es c : run SRw_Model.srw (SRw_Model.start n) es c -> exclusive nobody es.
Proof. intros R. apply (SRw_Proofs.run_inv_ _ _ _ R nobody). apply SRw_Proofs.start_inv. Qed.
Print Assumptions C43_mutex_exclusive.

(* What the clients believe they hold is what the history says, so exclusion is about the threads' actual states. *)
Theorem C43_futex_holders timed n es s ps : run (FRw_Model.frw timed) (FRw_Model.start n) es (s, ps) -> FRw_Model.dead s = false ->
  (forall t p, nth_error ps t = Some p -> (FRw_Model.wr p = true <-> writer (after nobody es) = Some t)) /\
  Z.of_nat (readers (after nobody es)) = tot (fun p => Z.of_nat (FRw_Model.rd p)) ps /\
  (writer (after nobody es) <> None -> readers (after nobody es) = 0%nat).
Proof.
  intros R D. destruct (FRw_Proofs.run_inv_ _ _ _ _ R nobody (or_intror (FRw_Proofs.start_inv n))) as [_ [X|X]]; [cbn in X; congruence|].
  split; [apply (FRw_Proofs.i_wr _ _ X)|]. split; [apply (FRw_Proofs.i_rd _ _ X)|]. intros W.
  destruct (FRw_Proofs.i_rep _ _ X) as (nr & wb & W1 & W2 & W3). cbn [fst snd] in *. destruct W3 as [(A & _)|(A & B & _)].
  - exfalso. apply W. apply (FRw_Proofs.nw_none _ _ _ X A).
  - pose proof (FRw_Proofs.i_rd _ _ X) as E. cbn [snd] in E. rewrite (FRw_Proofs.rd0 _ B) in E. lia.
Qed.
Print Assumptions C43_futex_holders.

(* C49, where a wait with timeout 0 returns (Linux): whenever nobody holds the lock and some thread is waiting in rdlock
   or wrlock, the threads already inside the library can, without any new call, give the lock to somebody. *)
Theorem C49_no_stuck_waiter n es s ps t p : run (FRw_Model.frw true) (FRw_Model.start n) es (s, ps) -> FRw_Model.dead s = false ->
  after nobody es = nobody -> nth_error ps t = Some p -> FRw_Proofs.waiting (FRw_Model.ph p) = true ->
  exists es' c', irun (FRw_Model.frw true) (s, ps) es' c' /\ Exists FRw_Proofs.acquires es'.
Proof.
  intros R D H Ht W. destruct (FRw_Proofs.run_inv_ _ _ _ _ R nobody (or_intror (FRw_Proofs.start_inv n))) as [_ X]. rewrite H in X.
  destruct X as [X|X]; [cbn in X; congruence|]. eapply FRw_Proofs.progress; eauto.
Qed.
Print Assumptions C49_no_stuck_waiter.
(* C49 fails where a timeout of 0 means none (OS X): a reader and two waiting writers; the reader's unlock wakes one
   writer, whose own unlock wakes nobody, and the second sleeps although the lock is free and every other thread rests. *)
Definition at_rest (p : FRw_Model.th) : Prop := FRw_Model.ph p = FRw_Model.Rest.
Theorem C49_lost_wakeup_refuted : exists es s ps t p,
  run (FRw_Model.frw false) (FRw_Model.start 3) es (s, ps) /\ FRw_Model.dead s = false /\ after nobody es = nobody /\
  nth_error ps t = Some p /\ FRw_Model.ph p = FRw_Model.WSleep /\
  (forall u q, nth_error ps u = Some q -> u <> t -> at_rest q) /\ (forall e c, ~ istep (FRw_Model.frw false) (s, ps) e c).
Proof.
  exists [RdRet 0; RdUnlock 0; WrRet 1; WrUnlock 1], (FRw_Model.mkrw 0 None false),
    [FRw_Model.mkth 0 false FRw_Model.Rest; FRw_Model.mkth 0 false FRw_Model.Rest; FRw_Model.mkth 0 false FRw_Model.WSleep], 2%nat,
    (FRw_Model.mkth 0 false FRw_Model.WSleep).
  split.
  { apply (script_run (FRw_Model.frw false)
      [Call 0 0; Act 0; Act 0;                                    (* 0 takes a read lock *)
       Call 1 2; Act 1; Act 1; Act 1; Act 1;                      (* 1 waits to write *)
       Call 2 2; Act 2; Act 2; Act 2; Act 2;                      (* 2 waits to write *)
       Call 0 5; Act 0; Act 0; Act 0; ActWake 0 1;                (* 0 unlocks and wakes 1 *)
       Act 1; Act 1; Act 1; Call 1 4; Act 1; Act 1; Act 1]). (* 1 gets the lock and releases it *)
    vm_compute. reflexivity. }
  split; [reflexivity|]. split; [reflexivity|]. split; [reflexivity|]. split; [reflexivity|]. split.
  - intros [|[|[|u]]] q H Ne; cbn in H; try (injection H as <-; reflexivity); [congruence|destruct u; discriminate].
  - intros e c H. assert (X : forall t p r, nth_error [FRw_Model.mkth 0 false FRw_Model.Rest; FRw_Model.mkth 0 false FRw_Model.Rest; FRw_Model.mkth 0 false FRw_Model.WSleep] t = Some p ->
      FRw_Model.act false t p (FRw_Model.mkrw 0 None false) = Some r -> False).
    { intros [|[|[|u]]] p r Hp Ha; cbn in Hp; try (injection Hp as <-; discriminate Ha). destruct u; discriminate. }
    inversion H; subst; match goal with Ha : Conc.act _ _ _ _ = Some _ |- _ => eapply X; [|exact Ha]; assumption end.
Qed.
Print Assumptions C49_lost_wakeup_refuted.

(* C50: a try operation of the futex lock never waits: left alone it returns, whatever state the lock is in. *)
Theorem C50_futex_try_returns timed n es s ps t p : run (FRw_Model.frw timed) (FRw_Model.start n) es (s, ps) -> FRw_Model.dead s = false ->
  nth_error ps t = Some p -> FRw_Model.ph p = FRw_Model.RGet true \/ FRw_Model.ph p = FRw_Model.WTry ->
  exists e c, irun (FRw_Model.frw timed) (s, ps) e c /\ (FRw_Model.dead (fst c) = true \/ exists ok, e = [RdTry t ok] \/ e = [WrTry t ok]).
Proof.
  intros _ D Ht [E|E]; destruct p as [r w f]; cbn in E; subst f.
  - destruct (Z.eq_dec (Z.land (FRw_Model.word s) FRw_Model.Nrmask) (FRw_Model.Nrmask - 1)) as [E1|E1].
    + eexists [], _. split; [change (@nil event) with (@nil event ++ []); eapply irun_act; [exact Ht|cbn [Conc.act FRw_Model.frw]; unfold FRw_Model.act; cbn [FRw_Model.ph]; rewrite D, E1, Z.eqb_refl; reflexivity|constructor]|left; reflexivity].
    + apply Z.eqb_neq in E1. destruct (Z.eqb_spec (Z.land (FRw_Model.word s) FRw_Model.Nrmask) FRw_Model.Nrmask) as [E2|E2].
      * eexists [RdTry t false], _. split; [|right; eauto]. change [RdTry t false] with ([RdTry t false] ++ []).
        eapply irun_act; [exact Ht|cbn [Conc.act FRw_Model.frw]; unfold FRw_Model.act; cbn [FRw_Model.ph]; rewrite D, E1, E2, Z.eqb_refl; reflexivity|constructor].
      * apply Z.eqb_neq in E2. eexists [RdTry t true], _. split; [|right; eauto]. change [RdTry t true] with ([] ++ [RdTry t true] ++ []).
        eapply irun_act; [exact Ht|cbn [Conc.act FRw_Model.frw]; unfold FRw_Model.act; cbn [FRw_Model.ph]; rewrite D, E1, E2; reflexivity|].
        eapply irun_act; [eapply nth_error_upd_same; exact Ht|cbn [Conc.act FRw_Model.frw]; unfold FRw_Model.act; cbn [FRw_Model.ph FRw_Model.go]; rewrite D, Z.eqb_refl; reflexivity|constructor].
  - destruct (Z.eqb_spec (FRw_Model.word s) 0) as [E1|E1].
    + eexists [WrTry t true], _. split; [|right; eauto]. change [WrTry t true] with ([] ++ [WrTry t true] ++ []).
      eapply irun_act; [exact Ht|cbn [Conc.act FRw_Model.frw]; unfold FRw_Model.act; cbn [FRw_Model.ph]; rewrite D, E1; reflexivity|].
      eapply irun_act; [eapply nth_error_upd_same; exact Ht|cbn [Conc.act FRw_Model.frw]; unfold FRw_Model.act; cbn [FRw_Model.ph FRw_Model.go FRw_Model.setw FRw_Model.dead]; rewrite D; reflexivity|constructor].
    + apply Z.eqb_neq in E1. eexists [WrTry t false], _. split; [|right; eauto]. change [WrTry t false] with ([WrTry t false] ++ []).
      eapply irun_act; [exact Ht|cbn [Conc.act FRw_Model.frw]; unfold FRw_Model.act; cbn [FRw_Model.ph]; rewrite D, E1; reflexivity|constructor].
Qed.
Print Assumptions C50_futex_try_returns.
(* C50 fails for the lock built from mutexes: while a writer holds the lock and a reader waits for it, tryrdlock does not
   return, however long the threads inside the library run. *)
Theorem C50_mutex_tryrdlock_refuted : exists s ps t, run SRw_Model.srw (SRw_Model.start 3) [WrRet 0] (s, ps) /\
  nth_error ps t = Some (SRw_Model.mkth 0 false (SRw_Model.RLk true)) /\
  forall es c, irun SRw_Model.srw (s, ps) es c -> es = [] /\ c = (s, ps).
Proof.
  exists (SRw_Model.mkrw true true 1), [SRw_Model.mkth 0 true SRw_Model.Rest; SRw_Model.mkth 0 false SRw_Model.RLock; SRw_Model.mkth 0 false (SRw_Model.RLk true)], 2%nat.
  split; [apply (script_run SRw_Model.srw [Call 0 2; Act 0; Call 1 0; Act 1; Act 1; Call 2 1]); vm_compute; reflexivity|]. split; [reflexivity|].
  intros es c R. remember (SRw_Model.mkrw true true 1, [SRw_Model.mkth 0 true SRw_Model.Rest; SRw_Model.mkth 0 false SRw_Model.RLock; SRw_Model.mkth 0 false (SRw_Model.RLk true)]) as c0 eqn:E.
  induction R as [c|c e c1 es c2 H R IH]; [auto|]. subst c.
  assert (X : forall t p p' s' f e, nth_error [SRw_Model.mkth 0 true SRw_Model.Rest; SRw_Model.mkth 0 false SRw_Model.RLock; SRw_Model.mkth 0 false (SRw_Model.RLk true)] t = Some p ->
    Conc.act SRw_Model.srw t p (SRw_Model.mkrw true true 1) = Some (p', s', f, e) -> p' = p /\ s' = SRw_Model.mkrw true true 1 /\ f = NoEff /\ e = []).
  { intros [|[|[|t]]] p p' s' f e' Hp Ha; cbn in Hp; try (injection Hp as <-; cbn in Ha; try discriminate Ha; injection Ha; intros; subst; auto; fail). destruct t; discriminate. }
  assert (Y : e = [] /\ c1 = (SRw_Model.mkrw true true 1, [SRw_Model.mkth 0 true SRw_Model.Rest; SRw_Model.mkth 0 false SRw_Model.RLock; SRw_Model.mkth 0 false (SRw_Model.RLk true)])).
  { inversion H as [s ps t p p' s' e0 Ht Ha|s ps t p p' s' a e0 j q Ht Ha|s ps t p p' s' a e0 Ht Ha|s ps t p p' s' a e0 Ht Ha]; subst;
      destruct (X _ _ _ _ _ _ Ht Ha) as (-> & -> & G & ->); try discriminate G. split; [reflexivity|]. f_equal. rewrite <- (nth_error_nth _ _ p Ht). apply upd_same. }
  destruct Y as [-> ->]. destruct (IH eq_refl) as [-> ->]. auto.
Qed.
Print Assumptions C50_mutex_tryrdlock_refuted.

(* Two readers share the lock while a writer waits; after both leave the writer gets it. *)
Example C43_example : exists c, run (FRw_Model.frw true) (FRw_Model.start 3) [RdRet 0; RdRet 1; RdUnlock 0; RdUnlock 1; WrRet 2] c.
Proof.
  eexists. apply (script_run (FRw_Model.frw true)
    [Call 0 0; Act 0; Act 0; Call 2 2; Act 2; Act 2; Act 2; Act 2; Call 1 0; Act 1; Act 1; Call 0 5; Act 0; Act 0;
     Call 1 5; Act 1; Act 1; Act 1; ActWake 1 2; Act 2; Act 2; Act 2]). vm_compute. reflexivity.
Qed.
(* A waiting writer after the last reader has decremented the count but not yet cleared the wait bit: C49's hypotheses hold. *)
Example C49_example : exists es s ps, run (FRw_Model.frw true) (FRw_Model.start 2) es (s, ps) /\ FRw_Model.dead s = false /\ after nobody es = nobody /\
  FRw_Model.word s = FRw_Model.Waitbit /\ nth_error ps 1 = Some (FRw_Model.mkth 0 false FRw_Model.WSleep).
Proof.
  exists [RdRet 0; RdUnlock 0]. eexists. eexists. split.
  - apply (script_run (FRw_Model.frw true) [Call 0 0; Act 0; Act 0; Call 1 2; Act 1; Act 1; Act 1; Act 1; Call 0 5; Act 0]). vm_compute. reflexivity.
  - cbn. auto.
Qed.
Example C43_mutex_example : exists c, run SRw_Model.srw (SRw_Model.start 2) [RdRet 0; RdRet 1; RdUnlock 0; RdUnlock 1; WrRet 0] c.
Proof.
  eexists. apply (script_run SRw_Model.srw [Call 0 0; Act 0; Act 0; Act 0; Act 0; Call 1 0; Act 1; Act 1; Act 1; Call 0 4; Act 0; Act 0; Act 0;
    Call 1 4; Act 1; Act 1; Act 1; Act 1; Call 0 2; Act 0]). vm_compute. reflexivity.
Qed.
