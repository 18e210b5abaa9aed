(* C13: constant folding keeps the value of integer expressions.  C53: it keeps the calls an expression makes. *)
From Coq Require Import Lia ZifyBool.
From Verif Require Import Base Word Fold_Spec Fold_Model Fold_Proofs.
Open Scope Z_scope.

(* C13, for expressions in which a literal under / % >> or a widening cast, after folding, is in the range of its type: whatever
   the variables and the results of calls, the folded expression has the value of the original wherever that is defined. *)
Theorem C13_value_partial results env consts e x v l : wt e -> okconsts results env consts e -> fits consts e ->
  fold consts e = FOk x -> eval results env e = Some (v, l) -> exists l', eval results env x = Some (v, l').
Proof. intros W K FT F E. destruct (fold_eval results env consts e x v l W K FT F E) as (l' & A & _). now exists l'. Qed.
Print Assumptions C13_value_partial.
(* in particular for all expressions of + - * << & | ^, negation and casts that do not widen, at any types *)
Theorem C13_ring results env consts e x v l : wt e -> okconsts results env consts e -> ring e = true ->
  fold consts e = FOk x -> eval results env e = Some (v, l) -> exists l', eval results env x = Some (v, l').
Proof. intros W K R. apply C13_value_partial; auto. now apply ring_fits. Qed.
Print Assumptions C13_ring.
(* and for all expressions whose operands are all 64-bit signed *)
Theorem C13_int64 results env consts e x v l : wt e -> okconsts results env consts e -> all64 e ->
  fold consts e = FOk x -> eval results env e = Some (v, l) -> exists l', eval results env x = Some (v, l').
Proof.
  intros W K A. apply C13_value_partial; auto. clear x v l.
  assert (EX : forall a, wt a -> okconsts results env consts a -> ty a = int64 -> exactlit consts a).
  { intros a Wa Ka Ta y k F G. destruct (fold_shape results env consts a y Wa Ka F) as (Wy & Ty & _). rewrite Ta in *. unfold norm, int64. cbn [signed width].
    destruct y; try discriminate G; cbn in G; injection G as <-; unfold vlong; [symmetry; apply swrap_small; [lia|apply swrap_range; lia]|].
    pose proof (uwrap_range 32 c ltac:(lia)). symmetry. apply swrap_small; lia. }
  induction e as [t k|t c|t y|t a IHa|o t a IHa b IHb|t a IHa|t f a IHa]; cbn in W, K, A |- *; try tauto.
  - destruct W as (_ & Ta & Wa & Wb & Wc), K, A as (-> & A1 & A2). split; [auto|]. split; [auto|]. destruct o; auto.
  - destruct A as (-> & A1). destruct W as (_ & W). split; [auto|]. left. destruct a; cbn in A1 |- *; destruct A1 as [-> _]; cbn; lia.
Qed.
Print Assumptions C13_int64.
(* The compiler stops with "division by zero" only if some divisor folds to the literal zero; and
   an expression with such a divisor is never folded to a value. *)
Theorem C13_divzero consts e : (fold consts e = FDivZero -> divzero consts e) /\ (divzero consts e -> forall x, fold consts e <> FOk x).
Proof. split; [apply fold_divzero|apply divzero_fold]. Qed.
Print Assumptions C13_divzero.

(* It is false in general.  Literals are folded as signed 64-bit numbers whatever their type: *)
Definition uint64 := mkity 64 false. Definition uint8 := mkity 8 false. Definition int8 := mkity 8 true. Definition int32 := mkity 32 true.
Definition none (_ : nat) : option expr := None.
Definition changes (e : expr) : Prop := wt e /\ exists x v w, fold none e = FOk x /\ eval (fun _ _ => 0) (fun _ => 0) e = Some (v, []) /\ eval (fun _ _ => 0) (fun _ => 0) x = Some (w, []) /\ v <> w.
Ltac show := split; [cbn; unfold okity; cbn; tauto|]; eexists _, _, _; (split; [vm_compute; reflexivity|]); (split; [vm_compute; reflexivity|]); (split; [vm_compute; reflexivity|]); discriminate.
(* 18446744073709551615 / 2 at uint64 *)
Theorem C13_unsigned_division_refuted : exists e, changes e.
Proof. exists (Bin Div uint64 (Lit uint64 (2 ^ 64 - 1)) (Lit uint64 2)). show. Qed.
Print Assumptions C13_unsigned_division_refuted.
(* 18446744073709551615 >> 1 at uint64 *)
Theorem C13_unsigned_shift_refuted : exists e, changes e.
Proof. exists (Bin Shr uint64 (Lit uint64 (2 ^ 64 - 1)) (Lit uint64 1)). show. Qed.
Print Assumptions C13_unsigned_shift_refuted.
(* (200 + 100) / 2 at uint8: the sum is not reduced to 44 *)
Theorem C13_narrow_division_refuted : exists e, changes e.
Proof. exists (Bin Div uint8 (Bin Add uint8 (Lit uint8 200) (Lit uint8 100)) (Lit uint8 2)). show. Qed.
Print Assumptions C13_narrow_division_refuted.
(* ((255 : uint8) : int8) : int32 stays 255 *)
Theorem C13_cast_refuted : exists e, changes e.
Proof. exists (Cast int32 (Cast int8 (Lit uint8 255))). show. Qed.
Print Assumptions C13_cast_refuted.
(* and an expression with a value can make the folder itself overflow, which C leaves undefined *)
Theorem C13_overflow_refuted : exists e v, wt e /\ eval (fun _ _ => 0) (fun _ => 0) e = Some (v, []) /\ fold none e = FUb.
Proof. exists (Bin Add uint64 (Lit uint64 (2 ^ 63)) (Lit uint64 (2 ^ 63))), 0. split; [cbn; unfold okity; cbn; tauto|]. split; vm_compute; reflexivity. Qed.
Print Assumptions C13_overflow_refuted.

(* C53: provided no operand of * or % contains a call, the folded expression makes the same calls. *)
Theorem C53_calls_partial results env consts e x v l : wt e -> okconsts results env consts e -> fits consts e -> keepscalls e = true ->
  fold consts e = FOk x -> eval results env e = Some (v, l) -> eval results env x = Some (v, l).
Proof. intros W K FT KC F E. destruct (fold_eval results env consts e x v l W K FT F E) as (l' & A & B). now rewrite <- (B KC). Qed.
Print Assumptions C53_calls_partial.
(* 0 * f(1) is folded to 0: the call is lost *)
Theorem C53_calls_refuted : exists e x v, wt e /\ fold none e = FOk x /\ eval (fun _ _ => 7) (fun _ => 0) e = Some (v, [(0%nat, 1)]) /\ eval (fun _ _ => 7) (fun _ => 0) x = Some (v, []).
Proof.
  exists (Bin Mul int32 (Lit int32 0) (Call int32 0 (Lit int32 1))). eexists _, _. split; [cbn; unfold okity; cbn; tauto|]. split; [vm_compute; reflexivity|]. split; vm_compute; reflexivity.
Qed.
Print Assumptions C53_calls_refuted.

(* (x + (3 - 3)) * (10 / 5) + c, with c a constant whose initialiser is 'a' : int32 *)
Definition ex := Bin Add int32 (Bin Mul int32 (Bin Add int32 (Var int32 0) (Bin Sub int32 (Lit int32 3) (Lit int32 3))) (Bin Div int32 (Lit int32 10) (Lit int32 5))) (Var int32 1).
Definition exc (x : nat) : option expr := match x with 1%nat => Some (Chr int32 97) | _ => None end.
Example C13_nonvacuous : wt ex /\ okconsts (fun _ _ => 0) (fun _ => 97) exc ex /\ fits exc ex /\ keepscalls ex = true /\
  fold exc ex = FOk (Bin Add int32 (Bin Mul int32 (Var int32 0) (Lit int32 2)) (Chr int32 97)) /\ eval (fun _ _ => 0) (fun _ => 97) ex = Some (291, []).
Proof.
  split; [cbn; unfold okity; cbn; tauto|]. split; [|split; [|split; [reflexivity|split; vm_compute; reflexivity]]].
  - split; [split; [split; [|split]|split]|]; cbn; try exact Logic.I; intros i H; [discriminate|]. injection H as <-. repeat split; try reflexivity. cbn. unfold okity. cbn. tauto.
  - repeat split; intros x k F G; cbn in F; injection F as <-; cbn in G; injection G as <-; vm_compute; reflexivity.
Qed.
