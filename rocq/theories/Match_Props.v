(* C09: match statements run the first arm that matches.  C10: exhaustiveness check.  C11: unreachable arms.
   C12: compilation of a match terminates without crashing.  C52: the variables of the arm chosen. *)
From Coq Require Import Lia ZifyBool ZifyNat.
From Verif Require Import Base Match_Spec Match_Model Match_Proofs Match_Rows Match_Top Match_Full Match_Exh Match_Emit Match_EmitProofs.
Open Scope Z_scope.

(* C09, for arms whose alternatives are at the top and which name no structured constant: the emitted code, run on any value of
   the type, ends in the block of the first arm that matches, and reads no part of the value that does not exist. *)
Theorem C09_first_arm_partial ps t d v i : okpats ps t -> gendtree ps t = Ok d -> wtv v t -> first_arm ps v = Some i ->
  exists code fuel env, matchcode d = Some code /\ runc fuel code code v [] = Done i env.
Proof.
  intros OK G Hv F. assert (N : exists p, nth_error ps i = Some p).
  { pose proof (gendtree_run ps t OK d v G Hv) as R. rewrite F in R. destruct R as (r & cs & b & p & _ & _ & N & _). now exists p. }
  destruct N as (p & N). destruct (gendtree_code ps t d v i p OK G Hv F N) as (code & fuel & env & A & B & _). now exists code, fuel, env.
Qed.
Print Assumptions C09_first_arm_partial.

(* it is false with alternatives inside a tuple: of `(1 || 2, 3)` and `(_, _)`, (2, 4) takes the first arm *)
Definition tint : ty := TSc 0 256 256.
Definition tbool : ty := TSc 0 2 2.
Definition t2 := TTup [tint; tint].
Theorem C09_nested_alternatives_refuted : exists ps t d code v env, Forall (fun p => wtp p t) ps /\ gendtree ps t = Ok d /\ matchcode d = Some code /\ wtv v t /\
  first_arm ps v = Some 1%nat /\ runc 20 code code v [] = Done 0 env.
Proof.
  exists [PTup [POr (PLit 1) (PLit 2); PLit 3]; PGap], t2. eexists _, _, (VTup [VLit 2; VLit 4]), _.
  split; [repeat constructor; cbn; try lia; exact Logic.I|]. split; [vm_compute; reflexivity|]. split; [vm_compute; reflexivity|].
  split; [cbn; lia|]. split; vm_compute; reflexivity.
Qed.
Print Assumptions C09_nested_alternatives_refuted.
(* and with a named constant that is itself a tuple: const C = ((1, 2), 3) with arms C, ((_, 5), _), _ on ((1, 2), 5) *)
Theorem C09_structured_constant_refuted : exists ps t d code v env, Forall (fun p => wtp p t) ps /\ gendtree ps t = Ok d /\ matchcode d = Some code /\ wtv v t /\
  first_arm ps v = Some 2%nat /\ runc 20 code code v [] = Done 1 env.
Proof.
  exists [PConst (PTup [PTup [PLit 1; PLit 2]; PLit 3]); PTup [PTup [PGap; PLit 5]; PGap]; PGap], (TTup [t2; tint]). eexists _, _, (VTup [VTup [VLit 1; VLit 2]; VLit 5]), _.
  split; [repeat constructor; cbn; try lia; exact Logic.I|]. split; [vm_compute; reflexivity|]. split; [vm_compute; reflexivity|].
  split; [cbn; lia|]. split; vm_compute; reflexivity.
Qed.
Print Assumptions C09_structured_constant_refuted.

(* the hypotheses are met: arms `(1, "ab") || (2, _)`, `(_, "b")`, `x` on a pair of a byte and a string *)
Definition ex_arms := [POr (PTup [PLit 1; PStr [97; 98]]) (PTup [PLit 2; PGap]); PTup [PGap; PStr [98]]; PVar 7].
Definition ex_ty := TTup [tint; TStr].
Example C09_nonvacuous : exists d code, okpats ex_arms ex_ty /\ gendtree ex_arms ex_ty = Ok d /\ matchcode d = Some code /\
  runc 100 code code (VTup [VLit 2; VStr [98]]) [] = Done 0 [] /\
  runc 100 code code (VTup [VLit 1; VStr [98]]) [] = Done 1 [] /\
  runc 100 code code (VTup [VLit 1; VStr [97; 99]]) [] = Done 2 [].
Proof.
  eexists _, _. split; [repeat constructor; cbn; try lia|]. split; [vm_compute; reflexivity|]. split; [vm_compute; reflexivity|]. repeat split; vm_compute; reflexivity.
Qed.

(* C10, for arms that look at one place only: a literal or a union's constructor.  `fair`: the compiler's count of each scalar
   type's values is not an undercount, or exceeds the number of arms. *)
Theorem C10_exhaustive_partial ps t d : okpats ps t -> fair (Z.of_nat (length (allrows ps t))) t -> forallb shallow ps = true ->
  gendtree ps t = Ok d -> forall v, wtv v t -> first_arm ps v <> None.
Proof. intros OK F S G. exact (gendtree_shallow ps t OK F d S G). Qed.
Print Assumptions C10_exhaustive_partial.
(* for any arms with alternatives at the top, it would be enough for the check to descend into default branches as well *)
Theorem C10_deep_check ps t d : okpats ps t -> fair (Z.of_nat (length (allrows ps t))) t -> gendtree ps t = Ok d ->
  checked (S (root d)) (dnodes d) (root d) = true -> forall v, wtv v t -> first_arm ps v <> None.
Proof. intros OK F. exact (gendtree_full ps t OK F d). Qed.
Print Assumptions C10_deep_check.
(* as it stands the check lets through `(true, _)`, `(_, 2)`: nothing matches (false, 0), and control falls into the first arm *)
Theorem C10_refuted : exists ps t d code v, okpats ps t /\ fair (Z.of_nat (length (allrows ps t))) t /\ gendtree ps t = Ok d /\ matchcode d = Some code /\ wtv v t /\
  first_arm ps v = None /\ runc 20 code code v [] = FellOff.
Proof.
  exists [PTup [PLit 1; PGap]; PTup [PGap; PLit 2]], (TTup [tbool; tint]). eexists _, _, (VTup [VLit 0; VLit 0]).
  split; [repeat constructor; cbn; lia|]. split; [cbn; lia|]. split; [vm_compute; reflexivity|]. split; [vm_compute; reflexivity|]. split; [cbn; lia|]. split; vm_compute; reflexivity.
Qed.
Print Assumptions C10_refuted.
(* an option type: `None`, `Some x` is accepted; leaving an arm out is not *)
Definition topt := TUn [None; Some tint].
Example C10_nonvacuous : okpats [PUn 0 None; PUn 1 (Some (PVar 3))] topt /\ fair 2 topt /\ (exists d, gendtree [PUn 0 None; PUn 1 (Some (PVar 3))] topt = Ok d) /\
  gendtree [PUn 1 (Some (PVar 3))] topt = Nonexhaustive /\ gendtree [PLit 1] tbool = Nonexhaustive /\
  (exists d, gendtree [PUn 1 (Some (PLit 4)); PUn 0 None; PUn 1 (Some PGap)] topt = Ok d /\ checked (S (root d)) (dnodes d) (root d) = true).
Proof.
  split; [repeat constructor; cbn; lia|]. split; [cbn; lia|]. split; [eexists; vm_compute; reflexivity|]. split; [vm_compute; reflexivity|]. split; [vm_compute; reflexivity|].
  eexists. split; vm_compute; reflexivity.
Qed.

(* C11: an arm without alternatives that is reported as matched by an earlier case is chosen for no value. *)
Theorem C11_reported_only_if_partial ps t i p : okpats ps t -> gendtree ps t = Redundant i -> nth_error ps i = Some p -> isor p = false ->
  forall v, wtv v t -> pmatch p v = true -> exists j q, (j < i)%nat /\ nth_error ps j = Some q /\ pmatch q v = true.
Proof.
  intros OK G Np IO v Hv M. destruct (gendtree_redundant ps t OK i G) as (k & q & b & N & K).
  pose proof (altlist_arm ps 0 _ (nth_error_In _ _ N)) as (p' & _ & P1 & _ & P3). cbn in P1, P3. rewrite Nat.sub_0_r, Np in P1. injection P1 as <-.
  assert (q = p) by (destruct p; cbn in P3; try discriminate IO; destruct P3 as [<-|[]]; reflexivity). subst q.
  destruct (K v Hv M) as (k' & [[j r] b'] & Lt & Nk & Mk). cbn in Mk. pose proof (altlist_arm ps 0 _ (nth_error_In _ _ Nk)) as (pj & _ & Q1 & _ & Q3). cbn in Q1, Q3. rewrite Nat.sub_0_r in Q1.
  assert (MJ : pmatch pj v = true) by (rewrite pmatch_alts; apply existsb_exists; now exists r).
  exists j, pj. split; [|now split].
  (* rows are in the order of the arms, and arm i has one row *)
  assert (ORD : forall n ps a b x y, nth_error (altlist n ps) a = Some x -> nth_error (altlist n ps) b = Some y -> (a < b)%nat -> (fst (fst x) <= fst (fst y))%nat).
  { clear. intros n ps. revert n. induction ps as [|p ps IH]; intros n a b x y Ha Hb Lt; unfold altlist in *; cbn [number flat_map fst snd] in *; [destruct a; discriminate|].
    set (m := map (fun q => (n, q, isor p)) (alts p)) in *. assert (FM : forall a x, nth_error m a = Some x -> fst (fst x) = n).
    { intros c z Hc. apply nth_error_In, in_map_iff in Hc as (q & <- & _). reflexivity. }
    assert (GE : forall a x, nth_error (flat_map (fun ip : nat * pat => map (fun q => (fst ip, q, isor (snd ip))) (alts (snd ip))) (number (S n) ps)) a = Some x -> (n <= fst (fst x))%nat).
    { intros c z Hc. apply nth_error_In, in_flat_map in Hc as ([k r] & H1 & H2). apply number_in in H1 as [H1 _]. cbn in *. apply in_map_iff in H2 as (q & <- & _). cbn. lia. }
    destruct (Nat.lt_ge_cases a (length m)) as [La|La]; destruct (Nat.lt_ge_cases b (length m)) as [Lb|Lb].
    - rewrite nth_error_app1 in Ha, Hb by lia. rewrite (FM _ _ Ha), (FM _ _ Hb). lia.
    - rewrite nth_error_app1 in Ha by lia. rewrite nth_error_app2 in Hb by lia. rewrite (FM _ _ Ha). eapply GE; eauto.
    - lia.
    - rewrite nth_error_app2 in Ha, Hb by lia. eapply (IH (S n)); [exact Ha|exact Hb|lia]. }
  pose proof (ORD _ _ _ _ _ _ Nk N Lt) as LE. cbn in LE. destruct (Nat.eq_dec j i) as [->|NE]; [|lia]. exfalso.
  assert (ONE : forall n ps a b x y p, nth_error (altlist n ps) a = Some x -> nth_error (altlist n ps) b = Some y -> fst (fst x) = (n + i)%nat -> fst (fst y) = (n + i)%nat ->
     nth_error ps i = Some p -> isor p = false -> a = b).
  { clear. intros n ps. revert n i. induction ps as [|p ps IH]; intros n i a b x y p' Ha Hb Fa Fb Np IO; [destruct i; discriminate|]. unfold altlist in *. cbn [number flat_map fst snd] in *.
    set (m := map (fun q => (n, q, isor p)) (alts p)) in *. assert (FM : forall a x, nth_error m a = Some x -> fst (fst x) = n).
    { intros c z Hc. apply nth_error_In, in_map_iff in Hc as (q & <- & _). reflexivity. }
    assert (GE : forall a x, nth_error (flat_map (fun ip : nat * pat => map (fun q => (fst ip, q, isor (snd ip))) (alts (snd ip))) (number (S n) ps)) a = Some x -> (n < fst (fst x))%nat).
    { intros c z Hc. apply nth_error_In, in_flat_map in Hc as ([k r] & H1 & H2). apply number_in in H1 as [H1 _]. cbn in *. apply in_map_iff in H2 as (q & <- & _). cbn. lia. }
    destruct i as [|i].
    - cbn in Np. injection Np as ->. assert (Lm : length m = 1%nat) by (unfold m; rewrite map_length; destruct p'; try reflexivity; discriminate IO).
      assert (A0 : forall c z, nth_error (m ++ flat_map (fun ip : nat * pat => map (fun q => (fst ip, q, isor (snd ip))) (alts (snd ip))) (number (S n) ps)) c = Some z -> fst (fst z) = (n + 0)%nat -> c = O).
      { intros c z Hc Fz. destruct (Nat.lt_ge_cases c (length m)); [lia|]. rewrite nth_error_app2 in Hc by lia. apply GE in Hc. lia. }
      now rewrite (A0 _ _ Ha Fa), (A0 _ _ Hb Fb).
    - assert (A0 : forall c z, nth_error (m ++ flat_map (fun ip : nat * pat => map (fun q => (fst ip, q, isor (snd ip))) (alts (snd ip))) (number (S n) ps)) c = Some z -> fst (fst z) = (n + S i)%nat -> (length m <= c)%nat).
      { intros c z Hc Fz. destruct (Nat.lt_ge_cases c (length m)) as [L|L]; [|exact L]. rewrite nth_error_app1 in Hc by lia. apply FM in Hc. lia. }
      pose proof (A0 _ _ Ha Fa). pose proof (A0 _ _ Hb Fb). rewrite nth_error_app2 in Ha, Hb by lia.
      assert ((a - length m = b - length m)%nat) by (eapply (IH (S n) i); [exact Ha|exact Hb| | |exact Np|exact IO]; lia). lia. }
  pose proof (ONE 0%nat ps k' k _ _ p Nk N eq_refl eq_refl Np IO). lia.
Qed.
Print Assumptions C11_reported_only_if_partial.
(* alternatives inside a tuple: `(2, 4)` after `(1 || 2, 3)` is rejected although it is the only arm for (2, 4) *)
Theorem C11_reported_refuted : exists ps t v, Forall (fun p => wtp p t) ps /\ gendtree ps t = Redundant 1 /\ wtv v t /\ first_arm ps v = Some 1%nat.
Proof.
  exists [PTup [POr (PLit 1) (PLit 2); PLit 3]; PTup [PLit 2; PLit 4]; PGap], t2, (VTup [VLit 2; VLit 4]).
  split; [repeat constructor; cbn; try lia; exact Logic.I|]. split; [vm_compute; reflexivity|]. split; [cbn; lia|vm_compute; reflexivity].
Qed.
Print Assumptions C11_reported_refuted.
(* not every useless arm is reported: `(_, true)`, `(_, false)`, `(true, _)` is accepted *)
Theorem C11_every_refuted : exists ps t d, okpats ps t /\ gendtree ps t = Ok d /\ (2 < length ps)%nat /\ forall v, wtv v t -> first_arm ps v <> Some 2%nat.
Proof.
  exists [PTup [PGap; PLit 1]; PTup [PGap; PLit 0]; PTup [PLit 1; PGap]], (TTup [tbool; tbool]). eexists.
  split; [repeat constructor; cbn; lia|]. split; [vm_compute; reflexivity|]. split; [cbn; lia|].
  intros v H. destruct v as [| | |vs|]; cbn in H; try tauto. destruct vs as [|[a| | | |] [|[b| | | |] [|? ?]]]; try tauto.
  cbn in H. assert (b = 0 \/ b = 1) as [-> | ->] by lia; cbn; discriminate.
Qed.
Print Assumptions C11_every_refuted.
Example C11_nonvacuous : okpats [PTup [PGap; PLit 1]; PTup [PLit 2; PLit 1]; PGap] t2 /\ gendtree [PTup [PGap; PLit 1]; PTup [PLit 2; PLit 1]; PGap] t2 = Redundant 1.
Proof. split; [repeat constructor; cbn; lia|vm_compute; reflexivity]. Qed.

(* C12: for every list of arms whatever, compilation ends. *)
Theorem C12_terminates ps t : ps <> [] -> gendtree ps t <> NoFuel.
Proof. apply gendtree_terminates. Qed.
Print Assumptions C12_terminates.
(* But looking for a test to share compares with a missing default branch: `(true, 0, _)`, `(_, _, true)`, `(_, _, false)`, `(true, _, _)` *)
Theorem C12_null_dereference_refuted : exists ps t, okpats ps t /\ gendtree ps t = NullDeref.
Proof.
  exists [PTup [PLit 1; PLit 0; PGap]; PTup [PGap; PGap; PLit 1]; PTup [PGap; PGap; PLit 0]; PTup [PLit 1; PGap; PGap]], (TTup [tbool; tint; tbool]).
  split; [repeat constructor; cbn; lia|vm_compute; reflexivity].
Qed.
Print Assumptions C12_null_dereference_refuted.
Example C12_nonvacuous : exists d, gendtree ex_arms ex_ty = Ok d /\ (3 < length (dnodes d))%nat.
Proof. eexists. split; [vm_compute; reflexivity|cbn; lia]. Qed.

(* C52: in the block of an arm without alternatives, each variable of the pattern holds the part of the value it stands for. *)
Theorem C52_captures_partial ps t d v i p : okpats ps t -> gendtree ps t = Ok d -> wtv v t -> first_arm ps v = Some i -> nth_error ps i = Some p -> isor p = false ->
  exists code fuel env, matchcode d = Some code /\ runc fuel code code v [] = Done i env /\ vars d i v env = map (fun x => (fst x, Some (snd x))) (bind p v).
Proof. intros OK G Hv F N IO. destruct (gendtree_code ps t d v i p OK G Hv F N) as (code & fuel & env & A & B & C). exists code, fuel, env. auto. Qed.
Print Assumptions C52_captures_partial.
(* With alternatives the variables are only assigned on the branches of literals: `(1, x) || (x, _)` on (2, 5) leaves x unassigned. *)
Theorem C52_alternatives_refuted : exists ps t d code v p, okpats ps t /\ gendtree ps t = Ok d /\ matchcode d = Some code /\ wtv v t /\ nth_error ps 0 = Some p /\ first_arm ps v = Some 0%nat /\
  bind p v = [(0%nat, VLit 2)] /\ runc 20 code code v [] = Done 0 [] /\ vars d 0 v [] = [].
Proof.
  exists [POr (PTup [PLit 1; PVar 0]) (PTup [PVar 0; PGap])], t2. eexists _, _, (VTup [VLit 2; VLit 5]), _.
  split; [repeat constructor; cbn; lia|]. split; [vm_compute; reflexivity|]. split; [vm_compute; reflexivity|]. split; [cbn; lia|]. repeat split; vm_compute; reflexivity.
Qed.
Print Assumptions C52_alternatives_refuted.
Example C52_nonvacuous : exists d code env, gendtree [PUn 1 (Some (PLit 4)); PUn 1 (Some (PVar 3)); PGap] topt = Ok d /\ matchcode d = Some code /\
  runc 50 code code (VUn 1 (Some (VLit 9))) [] = Done 1 env /\ vars d 1 (VUn 1 (Some (VLit 9))) env = [(3%nat, Some (VLit 9))].
Proof. eexists _, _, _. split; [vm_compute; reflexivity|]. split; [vm_compute; reflexivity|]. split; vm_compute; reflexivity. Qed.
