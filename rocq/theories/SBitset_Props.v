(* C29: property theorems about lib/std/bitset.myr. *)
From Verif Require Import Base SBitset_Model SBitset_Spec SBitset_Proofs.
Open Scope N_scope.

(* After any history in which intersections fit, membership is that of the mathematical set.
   Missing: intersections with a shorter second set (refuted below). *)
Theorem C29_bitset_is_a_set_partial : forall os r e, intersections_fit os ->
  (bshas (run os r) e = true <-> spec_run os r e).
Proof. intros os r e H. exact (proj2 (run_R os H) r e). Qed.
Print Assumptions C29_bitset_is_a_set_partial.

(* histories without intersections satisfy the hypothesis *)
Theorem C29_no_intersection_is_a_set : forall os r e, (forall a b, ~ In (OInter a b) os) ->
  (bshas (run os r) e = true <-> spec_run os r e).
Proof.
  intros os r e H. apply C29_bitset_is_a_set_partial. intros pre a b post E. exfalso. apply (H a b). rewrite E. apply in_elt.
Qed.
Print Assumptions C29_no_intersection_is_a_set.

(* what bsintersect(a, b) really does: members of a at or above the capacity of b survive *)
Theorem C29_intersect_exact : forall os r s e,
  bshas (fst (bsintersect (run os r) (run os s))) e = bshas (run os r) e && (bshas (run os s) e || (bsmax (run os s) <=? e)).
Proof. intros os r s e. exact (proj2 (proj2 (inter_spec _ _ (run_wf os r) (run_wf os s))) e). Qed.
Print Assumptions C29_intersect_exact.

Theorem C29_intersection_refuted : exists os r e, bshas (run os r) e = true /\ ~ spec_run os r e.
Proof.
  exists [OPut 0 3; OPut 0 100; OPut 1 3; OInter 0 1], 0%nat, 100. split; [reflexivity|].
  cbn. unfold supd. cbn. intros [_ [[]|H]]. discriminate H.
Qed.
Print Assumptions C29_intersection_refuted.

(* bsput and bsdel report whether they changed the set *)
Theorem C29_put_del_report_change : forall os r e,
  snd (bsput (run os r) e) = negb (bshas (run os r) e) /\ snd (bsdel (run os r) e) = bshas (run os r) e.
Proof. intros os r e. exact (conj (proj2 (proj2 (put_spec _ e (run_wf os r)))) (proj2 (proj2 (del_spec _ e (run_wf os r))))). Qed.
Print Assumptions C29_put_del_report_change.

(* iteration terminates, yields the members in increasing order, and bscount counts them *)
Theorem C29_iteration : forall os r, bsmax (run os r) < 2 ^ 63 ->
  exists l, drain (S (N.to_nat (bsmax (run os r)))) (run os r) 0 = Some l /\ StronglySorted N.lt l /\
    (forall x, In x l <-> bshas (run os r) x = true) /\ bscount (run os r) = Some (N.of_nat (length l)).
Proof. intros os r. exact (iterate_spec (run os r)). Qed.
Print Assumptions C29_iteration.

(* equality, inclusion and hash depend on, and determine, the members only *)
Theorem C29_equality : forall os r s, bseq (run os r) (run os s) = true <-> forall e, bshas (run os r) e = bshas (run os s) e.
Proof. intros os r s. exact (eq_spec _ _ (run_wf os r) (run_wf os s)). Qed.
Print Assumptions C29_equality.

(* bsissubset(a, b) answers whether b is a subset of a *)
Theorem C29_subset : forall os r s,
  bsissubset (run os r) (run os s) = true <-> forall e, bshas (run os s) e = true -> bshas (run os r) e = true.
Proof. intros os r s. exact (sub_spec _ _ (run_wf os r) (run_wf os s)). Qed.
Print Assumptions C29_subset.

Theorem C29_hash_respects_contents : forall os r s,
  hashed (run os r) = hashed (run os s) <-> forall e, bshas (run os r) e = bshas (run os s) e.
Proof. intros os r s. exact (hash_spec _ _ (run_wf os r) (run_wf os s)). Qed.
Print Assumptions C29_hash_respects_contents.

Example C29_example :
  let m := run [OPut 0 5; OPut 1 5; OPut 1 500; ODel 1 500; OPut 2 300; OInter 0 2; OUnion 2 1; ODiff 2 1; OEq 1 0] in
  map (bshas (m 1%nat)) [5; 500] = [true; false] /\ drain 1000 (m 2%nat) 0 = Some [300] /\ bseq (m 0%nat) (m 3%nat) = true /\
  hashed (m 1%nat) = [32] /\ bsissubset (m 1%nat) (m 0%nat) = true /\ bsissubset (m 0%nat) (m 1%nat) = false.
Proof. vm_compute. auto 10. Qed.
Example C29_example_fits : intersections_fit [OPut 0 5; OPut 2 300; OInter 0 2].
Proof.
  intros pre r s post E. destruct pre as [|a [|b [|c pre]]]; try discriminate.
  - injection E as <- <- <- <- <-. intros x. cbn. unfold supd. cbn. intros [[]| ->]. reflexivity.
  - injection E as _ _ _ E. destruct pre; discriminate.
Qed.
