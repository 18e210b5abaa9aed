(* C01-C03: property theorems about util/bitset.c. *)
From Verif Require Import Base CBitset_Model CBitset_Spec CBitset_Proofs.
Open Scope N_scope.

(* C01: after any history of operations on any number of bit sets (same set may be both operands),
   bshas answers exactly membership in the mathematical set. *)
Theorem C01_bitset_is_a_set : forall (os : list op) (r : nat) (e : N),
  bshas (run os r) e = true <-> spec_run os r e.
Proof. intros os r e. exact (proj2 (run_R os) r e). Qed.
Print Assumptions C01_bitset_is_a_set.

Example C01_example :
  let os := [OPut 0 3; OPut 0 200; OPut 1 200; OPut 1 70; ODup 2 0; OInter 0 1; OUnion 1 2; ODiff 2 0; ODel 1 70] in
  map (fun p => bshas (run os (fst p)) (snd p)) [(0%nat,3);(0%nat,200);(1%nat,3);(1%nat,70);(2%nat,3);(2%nat,200)]
  = [false;true;true;false;true;false].
Proof. vm_compute. reflexivity. Qed.

(* C02: the documented loop terminates and lists exactly the members, strictly increasing; bscount
   counts them. *)
Theorem C02_iteration_visits_members_in_order : forall (os : list op) (r : nat),
  exists l,
    bsloop (S (N.to_nat (bsmax (run os r)))) (run os r) 0 = Some l /\
    StronglySorted N.lt l /\
    (forall x, In x l <-> spec_run os r x) /\
    bscount (run os r) = N.of_nat (length l).
Proof. exact iterate_main. Qed.
Print Assumptions C02_iteration_visits_members_in_order.

(* C02, any start position: bsiter returns the least member that is >= the start, or 0 if none. *)
Theorem C02_bsiter_next : forall (os : list op) (r : nat) (i : N),
  match bsiter (run os r) i with
  | Some e => i <= e /\ bshas (run os r) e = true /\
              forall j, i <= j -> j < e -> bshas (run os r) j = false
  | None => forall j, i <= j -> bshas (run os r) j = false
  end.
Proof. intros os r i. exact (bsiter_spec (run os r) i (run_wf os r)). Qed.
Print Assumptions C02_bsiter_next.

Example C02_example :
  let b := run [OPut 0 300; OPut 0 63; OPut 0 64; OPut 0 0] 0%nat in
  bsloop 400 b 0 = Some [0; 63; 64; 300] /\ bscount b = 4 /\ bsiter b 65 = Some 300.
Proof. vm_compute. auto. Qed.

(* C03 *)
Theorem C03_bseq_decides_equality : forall (os : list op) (r s : nat),
  bseq (Some (run os r)) (Some (run os s)) = true <-> (forall x, spec_run os r x <-> spec_run os s x).
Proof. exact run_eq. Qed.
Print Assumptions C03_bseq_decides_equality.

(* a NULL set counts as empty in bseq *)
Theorem C03_bseq_null : forall (os : list op) (r : nat),
  (bseq (Some (run os r)) None = true <-> forall x, ~ spec_run os r x) /\
  (bseq None (Some (run os r)) = true <-> forall x, ~ spec_run os r x) /\
  bseq None None = true.
Proof. intros os r. exact (conj (run_empty os r) (conj (run_empty os r) eq_refl)). Qed.
Print Assumptions C03_bseq_null.

Theorem C03_bsissubset_decides_inclusion : forall (os : list op) (r s : nat),
  bsissubset (run os r) (run os s) = true <-> (forall x, spec_run os r x -> spec_run os s x).
Proof. exact run_sub. Qed.
Print Assumptions C03_bsissubset_decides_inclusion.

Theorem C03_bsisempty_decides_emptiness : forall (os : list op) (r : nat),
  bsisempty (run os r) = true <-> (forall x, ~ spec_run os r x).
Proof. exact run_empty. Qed.
Print Assumptions C03_bsisempty_decides_emptiness.

Example C03_example :
  let m := run [OPut 0 5; OPut 1 5; OPut 1 500; ODel 1 500; OPut 2 5; OPut 2 6] in
  bseq (Some (m 0%nat)) (Some (m 1%nat)) = true /\ bseq (Some (m 0%nat)) (Some (m 2%nat)) = false /\
  bsissubset (m 1%nat) (m 2%nat) = true /\ bsissubset (m 2%nat) (m 1%nat) = false /\
  bsisempty (m 3%nat) = true.
Proof. vm_compute. auto. Qed.
