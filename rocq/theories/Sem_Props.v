(* C41: semaphores neither invent units nor leave waiters asleep while units are available. *)
From Verif Require Import Base Conc Sem_Spec Sem_Model Sem_Proofs.
Open Scope Z_scope.

(* Any number of threads, any calls, any schedule, overflow included: units taken never exceed the initial value plus the
   number of posts.  Both implementations. *)
Theorem C41_futex_conserves n v es c : 0 <= v < 2 ^ 32 -> run fsem (start n v) es c -> conserves v es.
Proof.
  intros V R. destruct (crun_inv v fsem _ _ _ (or_introl eq_refl) R [] (start_cinv n v V)) as [A B _]. cbn [app] in B.
  unfold conserves. pose proof (cz_nonneg wdec (snd c)). pose proof (cz_nonneg padd (snd c)). lia.
Qed.
Print Assumptions C41_futex_conserves.
Theorem C41_spin_conserves n v es c : 0 <= v < 2 ^ 32 -> run ssem (start n v) es c -> conserves v es.
Proof.
  intros V R. destruct (crun_inv v ssem _ _ _ (or_intror eq_refl) R [] (start_cinv n v V)) as [A B _]. cbn [app] in B.
  unfold conserves. pose proof (cz_nonneg wdec (snd c)). pose proof (cz_nonneg padd (snd c)). lia.
Qed.
Print Assumptions C41_spin_conserves.

(* A positive value and a sleeping waiter: the threads already inside the library, without any new call and without
   spurious wake-ups, can make a semwait return.  (Fewer than 2^32 threads.) *)
Theorem C41_no_lost_wakeup n v es s ps t : 0 <= v < 2 ^ 32 -> Z.of_nat n < 2 ^ 32 -> run fsem (start n v) es (s, ps) ->
  dead s = false -> nth_error ps t = Some Asleep -> 0 < val s -> exists u c, irun fsem (s, ps) [SemRet u] c.
Proof.
  intros V N R D Ht P. destruct (run_inv_ v _ _ _ R [] (or_intror (start_inv n v V N))) as [X|X]; [cbn in X; congruence|].
  eapply progress; eauto. pose proof (cz_pos slp ps t _ Ht eq_refl). lia.
Qed.
Print Assumptions C41_no_lost_wakeup.
(* ... more precisely, there is a wake-up under way or an awake waiter for every available unit. *)
Theorem C41_wakeups_cover_units n v es s ps t : 0 <= v < 2 ^ 32 -> Z.of_nat n < 2 ^ 32 -> run fsem (start n v) es (s, ps) ->
  dead s = false -> nth_error ps t = Some Asleep ->
  val s <= Z.of_nat (count (fun p => match p with PWake => true | PChk v n => negb (v =? 2 ^ 32 - 1) && (n >? 0) | _ => false end) ps)
         + Z.of_nat (count (fun p => match p with WLoad | WCas _ | WWait => true | _ => false end) ps).
Proof.
  intros V N R D Ht. destruct (run_inv_ v _ _ _ R [] (or_intror (start_inv n v V N))) as [X|X]; [cbn in X; congruence|].
  apply (i_slp _ _ _ X). pose proof (cz_pos slp ps t _ Ht eq_refl). cbn [snd]. lia.
Qed.
Print Assumptions C41_wakeups_cover_units.
(* The waiter count in the upper half of the word is exact, so sempost's decision not to wake is right. *)
Theorem C41_post_wakes n v es s ps t : 0 <= v < 2 ^ 32 -> Z.of_nat n < 2 ^ 32 -> run fsem (start n v) es (s, ps) ->
  dead s = false -> nth_error ps t = Some Asleep -> 0 < nw s.
Proof.
  intros V N R D Ht. destruct (run_inv_ v _ _ _ R [] (or_intror (start_inv n v V N))) as [X|X]; [cbn in X; congruence|].
  pose proof (i_nw _ _ _ X) as E. cbn [fst snd] in E. pose proof (cz_pos slp ps t _ Ht eq_refl). pose proof (cz_nonneg awk ps). pose proof (cz_nonneg wdec ps). pose proof (cz_nonneg ovf ps). lia.
Qed.
Print Assumptions C41_post_wakes.

(* Thread 0 waits on an empty semaphore and sleeps, thread 1 posts: the hypotheses of C41_no_lost_wakeup are met. *)
Example C41_example : exists s, run fsem (start 2 0) [PostCall 1] (s, [Asleep; PWake]) /\ dead s = false /\ 0 < val s.
Proof.
  exists (mksem_ 1 1 false). split; [|cbn; auto; lia].
  apply (script_run fsem [Call 0 0; Act 0; Act 0; Act 0; Call 1 2; Act 1; Act 1]). vm_compute. reflexivity.
Qed.
(* and the unit is then handed over *)
Example C41_example_handover : exists c, irun fsem (mksem_ 1 1 false, [Asleep; PWake]) [SemRet 0] c.
Proof. apply (pwake_run (mksem_ 1 1 false) [Asleep; PWake] 1 0); auto. cbn. lia. Qed.
