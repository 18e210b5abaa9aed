(* C44: the thread queue is a FIFO queue.  C51: no consumer is left asleep while an item is available. *)
From Verif Require Import Base Conc Queue_Spec Queue_Model Queue_Proofs Queue_Live.
Open Scope Z_scope.

(* C44: any number of producers and consumers, any values and addresses, any schedule (including spurious wake-ups): the calls
   and returns are those of a FIFO queue in which each operation takes effect between its call and its return. *)
Theorem C44_linearizable {V} (dom : list V) adr n es c : run (queues dom adr) (start n) es c -> linearizable es.
Proof.
  intros R. destruct (run_full _ _ _ _ _ R [] _ (start_full n)) as (h & [f q] & E & L & _). exists h, f, q. auto.
Qed.
Print Assumptions C44_linearizable.
(* Spelled out: the items taken, in order, followed by what is still queued, are the items put, in order. *)
Theorem C44_fifo {V} (es : list (obs V)) : linearizable es -> exists h q, erase h = es /\ puts h = takes h ++ q.
Proof. intros (h & f & q & E & L). exists h, q. split; auto. apply (lrun_fifo _ _ _ L). Qed.
Print Assumptions C44_fifo.
(* No operation touches a freed node or follows a null pointer, although addresses are reused at once. *)
Theorem C44_no_use_after_free {V} (dom : list V) adr n es s ps : run (queues dom adr) (start n) es (s, ps) -> bad s = false.
Proof. intros R. destruct (run_full _ _ _ _ _ R [] _ (start_full n)) as (h & l & _ & _ & I & _). apply (i_bad _ _ I). Qed.
Print Assumptions C44_no_use_after_free.

(* C51: if more puts than gets have returned and some get has not, the threads already inside the library can, without any
   new call, make a get return.  Fewer than 2^32 puts have been made (the condition's counter is 32 bits wide). *)
Theorem C51_get_returns {V} (dom : list V) adr n es c : run (queues dom adr) (start n) es c -> number is_putcall es < 2 ^ 32 ->
  number is_getret es < number is_putret es -> number is_getret es < number is_getcall es ->
  exists es' c', irun (queues dom adr) c es' c' /\ 0 < number is_getret es'.
Proof.
  intros R B G1 G2. destruct (run_full _ _ _ _ _ R [] _ (start_full n)) as (h & l & _ & _ & F). cbn [app] in F. eapply live; eauto.
Qed.
Print Assumptions C51_get_returns.

(* Without that bound it fails: a consumer that has read the counter but not yet gone to sleep misses 2^32 puts. *)
Section Wrap.
Let y := queues [tt] [0%nat].
Lemma run_act es c s ps t p p' s' e : run y c es (s, ps) -> nth_error ps t = Some p -> act t p s = Some (p', s', NoEff, e) -> run y c (es ++ e) (s', upd ps t p').
Proof. intros R Ht Ha. eapply run_app; [exact R|]. apply run_one. eapply step_act; eauto. Qed.
Lemma run_call es c s ps t p p' e : run y c es (s, ps) -> nth_error ps t = Some p -> In (p', e) (calls [tt] [0%nat] t p s) -> run y c (es ++ e) (s, upd ps t p').
Proof. intros R Ht Ha. eapply run_app; [exact R|]. apply run_one. eapply step_call; eauto. Qed.
Lemma run_put es c tl h z : run y c es (mkqueue None tl None z h false, [CWait 0; Idle]) -> h 0%nat = None ->
  run y c (es ++ [PutCall 1 tt; PutRet 1]) (mkqueue (Some 0%nat) (Some 0%nat) None ((z + 1) mod W32) (fset h 0 (Some (mknode tt None))) false, [CWait 0; Idle]).
Proof.
  intros R Hh. eapply (run_call _ _ _ _ 1) in R; [|reflexivity|right; left; reflexivity].
  eapply (run_act _ _ _ _ 1) in R; [|reflexivity|cbn; rewrite Hh; reflexivity].
  do 5 (eapply (run_act _ _ _ _ 1) in R; [|reflexivity|reflexivity]).
  eapply run_app with (fs := []) in R; [|apply run_one; eapply (step_wake_none _ _ _ 1); [reflexivity|reflexivity|]].
  2:{ intros [|[|[|j]]] q Hq _; cbn in Hq; try discriminate; injection Hq as <-; reflexivity. }
  eapply (run_act _ _ _ _ 1) in R; [|reflexivity|reflexivity]. cbn [upd app] in R. rewrite <- !app_assoc in R. cbn [app] in R. exact R.
Qed.
Lemma run_get es c z h : run y c es (mkqueue (Some 0%nat) (Some 0%nat) None z (fset h 0 (Some (mknode tt None))) false, [CWait 0; Idle]) ->
  exists tl h', run y c (es ++ [GetCall 1; GetRet 1 tt]) (mkqueue None tl None z h' false, [CWait 0; Idle]) /\ h' 0%nat = None.
Proof.
  intros R. eapply (run_call _ _ _ _ 1) in R; [|reflexivity|left; reflexivity].
  do 7 (eapply (run_act _ _ _ _ 1) in R; [|reflexivity|reflexivity]). cbn [upd app] in R. rewrite <- !app_assoc in R. cbn [app] in R.
  eexists _, _. split; [exact R|reflexivity].
Qed.
Lemma run_cycles k : exists es tl h, run y (start 2) es (mkqueue None tl None (Z.of_nat k mod W32) h false, [CWait 0; Idle]) /\ h 0%nat = None /\
  number is_putret es = Z.of_nat k /\ number is_getret es = Z.of_nat k /\ number is_getcall es = Z.of_nat k + 1.
Proof.
  induction k as [|k IH].
  - exists [GetCall 0], None, (fun _ => None). split; [|cbn; auto]. apply (script_run y [Call 0 0; Act 0; Act 0; Act 0; Act 0]). vm_compute. reflexivity.
  - destruct IH as (es & tl & h & R & Hh & N1 & N2 & N3). apply run_put in R; auto. apply run_get in R as (tl' & h' & R & Hh').
    exists ((es ++ [PutCall 1 tt; PutRet 1]) ++ [GetCall 1; GetRet 1 tt]), tl', h'. rewrite Zplus_mod_idemp_l in R. replace (Z.of_nat k + 1) with (Z.of_nat (S k)) in R by lia.
    split; auto. split; auto. rewrite !number_app, N1, N2, N3. change (number is_putret [PutCall 1 tt; PutRet 1]) with 1. change (number is_putret [GetCall 1; GetRet 1 tt]) with 0.
    change (number is_getret [PutCall 1 tt; PutRet 1]) with 0. change (number is_getret [GetCall 1; GetRet 1 tt]) with 1.
    change (number is_getcall [PutCall 1 tt; PutRet 1]) with 0. change (number is_getcall [GetCall 1; GetRet 1 tt]) with 1. lia.
Qed.
End Wrap.
Theorem C51_counter_wrap_refuted : exists es s ps, run (queues [tt] [0%nat]) (start 2) es (s, ps) /\
  number is_getret es < number is_putret es /\ number is_getret es < number is_getcall es /\
  ps = [CSleep; Idle] /\ hd s <> None /\ forall e c, ~ istep (queues [tt] [0%nat]) (s, ps) e c.
Proof.
  destruct (run_cycles (Z.to_nat (W32 - 1))) as (es & tl & h & R & Hh & N1 & N2 & N3). apply run_put in R; auto.
  rewrite Z2Nat.id in * by (unfold W32; lia).
  assert (E : ((W32 - 1) mod W32 + 1) mod W32 = 0) by reflexivity. rewrite E in R. clear E.
  eapply (run_act _ _ _ _ 0) in R; [|reflexivity|reflexivity]. cbn [seq] in R. change (0 =? 0) with true in R. cbn iota in R. cbn [upd] in R. rewrite app_nil_r in R.
  eexists _, _, _. split; [exact R|]. rewrite !number_app, N1, N2, N3.
  change (number is_putret [PutCall 1 tt; PutRet 1]) with 1. change (number is_getret [PutCall 1 tt; PutRet 1]) with 0. change (number is_getcall [PutCall 1 tt; PutRet 1]) with 0.
  split; [lia|]. split; [lia|]. split; [reflexivity|]. split; [discriminate|].
  intros e c H. assert (X : forall t p r s, nth_error [@CSleep unit; Idle] t = Some p -> act t p s = Some r -> False).
  { intros [|[|t]] p r s Hp Ha; cbn in Hp; try (injection Hp as <-; discriminate Ha). destruct t; discriminate. }
  inversion H; subst; match goal with Ha : Conc.act _ _ _ _ = Some _ |- _ => eapply X; [|exact Ha]; assumption end.
Qed.
Print Assumptions C51_counter_wrap_refuted.

(* Two consumers sleep, a producer puts two items, they get them in order, and a third item reuses a freed address. *)
Example C44_example : exists c, run (queues [7; 8] [0; 1]%nat) (start 3)
  [GetCall 0; GetCall 2; PutCall 1 7; PutRet 1; PutCall 1 8; PutRet 1; GetRet 2 7; GetRet 0 8; GetCall 0; PutCall 1 7; PutRet 1; GetRet 0 7] c.
Proof.
  eexists. apply (script_run (queues [7; 8] [0; 1]%nat)
    ([Call 0 0; Act 0; Act 0; Act 0; Act 0; Act 0; Call 2 0; Act 2; Act 2; Act 2; Act 2; Act 2] ++
     [Call 1 1; Act 1; Act 1; Act 1; Act 1; Act 1; Act 1; ActWake 1 0; Act 1] ++
     [Call 1 4; Act 1; Act 1; Act 1; Act 1; Act 1; Act 1; ActWake 1 2; Act 1] ++
     [Act 2; Act 2; Act 2; Act 2; Act 2; Act 2; Act 2] ++ [Act 0; Act 0; Act 0; Act 0; Act 0; Act 0; Act 0] ++
     [Call 0 0; Act 0; Act 0; Act 0; Act 0; Act 0] ++ [Call 1 1; Act 1; Act 1; Act 1; Act 1; Act 1; Act 1; ActWake 1 0; Act 1] ++
     [Act 0; Act 0; Act 0; Act 0; Act 0; Act 0; Act 0])%list). vm_compute. reflexivity.
Qed.
(* C51's hypotheses hold: the consumer sleeps, the producer has returned. *)
Example C51_example : exists s ps, run (queues [7] [0]%nat) (start 2) [GetCall 0; PutCall 1 7; PutRet 1] (s, ps) /\
  nth_error ps 0 = Some CLock /\
  number is_getret [GetCall 0; PutCall 1 7; PutRet 1] < number is_putret [GetCall 0; PutCall 1 7; PutRet 1] /\
  number is_getret [GetCall 0; PutCall 1 7; PutRet 1] < number is_getcall [GetCall 0; PutCall 1 7; PutRet 1].
Proof.
  eexists _, _. split.
  - apply (script_run (queues [7] [0]%nat)
    [Call 0 0; Act 0; Act 0; Act 0; Act 0; Act 0; Call 1 1; Act 1; Act 1; Act 1; Act 1; Act 1; Act 1; ActWake 1 0; Act 1]). vm_compute. reflexivity.
  - vm_compute. auto.
Qed.
