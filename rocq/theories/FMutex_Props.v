(* C39 (mutual exclusion) and C40 (no lost wake-up) for the futex-based mutex. *)
From Verif Require Import Base Conc Mutex_Spec FMutex_Model FMutex_Proofs.
Open Scope Z_scope.

(* C39: any number of threads, calling in any order (including relocking and unlocking without holding), any schedule,
   any spurious wake-ups: mtxlock and a successful mtxtrylock only ever return while nobody holds the mutex. *)
Theorem C39_futex_exclusive n es c : run fmutex (start n) es c -> exclusive None es.
Proof. intros R. eapply run_exclusive in R; [apply R|right; apply start_inv]. Qed.
Print Assumptions C39_futex_exclusive.

(* ... so at no moment are two callers between their lock and their unlock. *)
Theorem C39_futex_one_holder n es m ps t u : run fmutex (start n) es (m, ps) -> dead m = false ->
  nth_error ps t = Some Held -> nth_error ps u = Some Held -> t = u.
Proof.
  intros R D Ht Hu. eapply run_exclusive in R as [_ [X|X]]; [cbn in X; congruence| |right; apply start_inv].
  eapply own_unique; eauto.
Qed.
Print Assumptions C39_futex_one_holder.

(* A thread that relocks a mutex it holds, or unlocks one it does not hold, kills the process at its first step in the
   call, and nothing else does. *)
Definition misused (p : pc) : Prop := p = LockChk true \/ p = CtdChk true \/ p = UnlkChk false.
Theorem C39_futex_misuse_dies n es m ps t p : run fmutex (start n) es (m, ps) -> dead m = false -> nth_error ps t = Some p ->
  (misused p <-> exists r, act t p m = Some r /\ dead (snd (fst (fst r))) = true).
Proof.
  intros R D Ht. eapply run_exclusive in R as [_ [X|X]]; [cbn in X; congruence| |right; apply start_inv].
  pose proof (i_own _ _ X t p Ht) as O. cbn [fst] in O. split.
  - intros M. assert (Q : owned_by m t = own p).
    { destruct (own p) eqn:E; [apply owned_by_spec; tauto|]. destruct (owned_by m t) eqn:F; auto. apply owned_by_spec in F. rewrite <- O in F. congruence. }
    unfold misused in M. destruct M as [ -> |[ -> | -> ]]; cbn [own] in Q; eexists; (split; [unfold act; rewrite D, Q; reflexivity|reflexivity]).
  - intros (r & E & Z). unfold act in E. rewrite D in E.
    assert (Q : owned_by m t = true <-> own p = true) by (rewrite owned_by_spec; tauto).
    destruct p as [| |[]|k c| | |c| | |[]| |[]| | | |[]]; cbn [own] in Q; try discriminate E; unfold misused; auto; exfalso;
      try (injection E as <-; cbn in Z; congruence);
      try (destruct k; [|destruct (st m =? Unlocked)]; injection E as <-; cbn in Z; congruence);
      try (destruct (st m =? Unlocked); injection E as <-; cbn in Z; congruence).
    all: destruct (owned_by m t); [|try (destruct Q; discriminate (H0 eq_refl))]; try (destruct Q as [Q1 Q2]; discriminate (Q1 eq_refl)); injection E as <-; cbn in Z; congruence.
Qed.
Print Assumptions C39_futex_misuse_dies.

(* C40: if a thread sleeps in mtxlock while the state word says unlocked, some thread is about to wake a sleeper or is about
   to try to take the mutex marking it contended (so that its unlock will wake a sleeper). *)
Theorem C40_wake_pending n es m ps t : run fmutex (start n) es (m, ps) -> dead m = false ->
  nth_error ps t = Some Asleep -> st m = Unlocked -> exists u p, nth_error ps u = Some p /\ (p = UnlkWake \/ p = Xchg).
Proof.
  intros R D Ht S. eapply run_exclusive in R as [_ [X|X]]; [cbn in X; congruence| |right; apply start_inv].
  destruct (i_slp _ _ X) as [Y|Y]; cbn [fst snd] in *.
  - eapply count_pos; eauto.
  - unfold Unlocked in S. lia.
  - apply count_ex in Y as (u & p & Hu & Hp). exists u, p. split; auto. destruct p; try discriminate; auto.
Qed.
Print Assumptions C40_wake_pending.

(* C40: whenever nobody holds the mutex and somebody sleeps waiting for it, the threads already inside the library,
   without any new call and without spurious wake-ups, can give the mutex to somebody. *)
Theorem C40_no_lost_wakeup n es m ps t : run fmutex (start n) es (m, ps) -> dead m = false ->
  fold_left holder es None = None -> nth_error ps t = Some Asleep ->
  exists e c, irun fmutex (m, ps) [e] c /\ acquires e.
Proof.
  intros R D H Ht. eapply run_exclusive in R as [_ X]; [|right; apply start_inv]. unfold after in X. rewrite H in X.
  destruct X as [X|X]; [cbn in X; congruence|].
  destruct (progress m ps X D) as (l & e & c & I & -> & A); [eapply count_pos; eauto|]. exists e, c. auto.
Qed.
Print Assumptions C40_no_lost_wakeup.

(* Thread 0 locks; thread 1 contends and falls asleep; thread 0 unlocks: a reachable state meeting C40's hypotheses. *)
Fixpoint acts (k : nat) (t : nat) (c : mutex * list pc) : option (list event * (mutex * list pc)) :=
  match k with
  | O => Some ([], c)
  | S k => match nth_error (snd c) t with
    | Some p => match act t p (fst c) with
      | Some (p', m', NoEff, e) => match acts k t (m', upd (snd c) t p') with Some (es, c') => Some (e ++ es, c') | None => None end
      | _ => None end
    | None => None end
  end.
Lemma acts_run k t : forall c es c', acts k t c = Some (es, c') -> run fmutex c es c'.
Proof.
  induction k as [|k IH]; intros [m ps] es c' H; cbn [acts fst snd] in H.
  - injection H as <- <-. constructor.
  - destruct (nth_error ps t) as [p|] eqn:Ep; [|discriminate]. destruct (act t p m) as [[[[p' m'] [| |]] e]|] eqn:Ea; try discriminate.
    destruct (acts k t (m', upd ps t p')) as [[es' c2]|] eqn:Er; [|discriminate]. injection H as <- <-.
    eapply run_cons; [|eapply IH; eauto]. eapply step_act; eauto.
Qed.
Definition call_acts (t : nat) (p' : pc) (k : nat) (c : mutex * list pc) : option (list event * (mutex * list pc)) :=
  acts k t (fst c, upd (snd c) t p').
Example C40_example : exists es m ps, run fmutex (start 2) es (m, ps) /\ dead m = false /\ es = [LockRet 0; UnlockCall 0] /\
  fold_left holder es None = None /\ nth_error ps 1 = Some Asleep /\ st m = Unlocked.
Proof.
  assert (A : run fmutex (start 2) [LockRet 0] (mkmutex 1 (Some 0%nat) false, [Held; Idle])).
  { eapply (run_cons _ _ []); [apply (step_call fmutex mkmtx [Idle; Idle] 0 Idle (LockChk false) []); cbn; auto|].
    eapply (acts_run 3 0). vm_compute. reflexivity. }
  assert (B : run fmutex (mkmutex 1 (Some 0%nat) false, [Held; Idle]) [] (mkmutex 2 (Some 0%nat) false, [Held; Asleep])).
  { eapply (run_cons _ _ []); [apply (step_call fmutex _ [Held; Idle] 1 Idle (LockChk false) []); cbn; auto|].
    eapply (acts_run 15 1). vm_compute. reflexivity. }
  assert (C : run fmutex (mkmutex 2 (Some 0%nat) false, [Held; Asleep]) [UnlockCall 0] (mkmutex 0 None false, [UnlkWake; Asleep])).
  { eapply (run_cons _ _ [UnlockCall 0%nat]); [apply (step_call fmutex _ [Held; Asleep] 0 Held (UnlkChk true) [UnlockCall 0%nat]); cbn; auto|].
    eapply (acts_run 3 0). vm_compute. reflexivity. }
  exists [LockRet 0; UnlockCall 0], (mkmutex 0 None false), [UnlkWake; Asleep]. split; [|cbn; auto].
  change [LockRet 0; UnlockCall 0] with ([LockRet 0] ++ ([] ++ [UnlockCall 0])).
  eapply run_app; [exact A|]. eapply run_app; eauto.
Qed.
