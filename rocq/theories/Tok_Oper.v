From Verif Require Import Base Utf_Spec Tok_Model Tok_Spec Tok_Proofs.
From Coq Require Import ZifyBool ZifyN ZifyNat Lia.
Local Open Scope N_scope.
Local Open Scope list_scope.

(* ---- operators ---- *)
Definition ops := Eval vm_compute in operators.
Lemma operators_ops : operators = ops.
Proof. vm_compute. reflexivity. Qed.

Lemma mtch_some c s r : mtch c s = Some r <-> s = c :: r.
Proof.
  destruct s as [|d s]; cbn; [split; discriminate|]. destruct (N.eqb_spec d c) as [->|NE]; split; intros H; try discriminate; inversion H; subst; try reflexivity; congruence.
Qed.
Lemma mtch_none c s : mtch c s = None -> forall r, s <> c :: r.
Proof. intros H r ->. cbn in H. rewrite N.eqb_refl in H. discriminate. Qed.

Lemma mtch_none_not c s : mtch c s = None -> ~ (exists r, s = c :: r).
Proof. intros H [r E]. exact (mtch_none _ _ H r E). Qed.

Ltac longest :=
  let sp' := fresh in let t' := fresh in let r' := fresh in let I := fresh in let E := fresh in
  intros sp' t' r' I E; rewrite operators_ops in I; unfold ops in I;
  repeat (destruct I as [I|I]; [injection I as <- <-; cbn [app length] in E |- *; first [discriminate E|lia|exfalso];
    repeat (injection E as E; try discriminate E);
    repeat match goal with H : mtch _ _ = None |- _ => apply mtch_none_not in H end; eauto; congruence|]); destruct I.

Lemma oper_sound s t r : oper s = Some (t, r) -> exists sp, longest_operator s sp t /\ s = sp ++ r.
Proof.
  unfold oper, ifm. destruct s as [|c s]; [discriminate|].
  assert (FIN : forall (sp : text), (length sp <= 3)%nat -> In (sp, t) operators -> c :: s = sp ++ r ->
     (forall sp' t' r', In (sp', t') operators -> c :: s = sp' ++ r' -> (length sp' <= length sp)%nat) ->
     exists sp, longest_operator (c :: s) sp t /\ c :: s = sp ++ r).
  { intros sp _ I E M. exists sp. unfold longest_operator. eauto 8. }
  repeat match goal with
  | |- (if ?b then _ else _) = _ -> _ => destruct b eqn:?
  | |- match mtch ?m ?x with _ => _ end = _ -> _ => destruct (mtch m x) eqn:?
  end; intros H; try discriminate; injection H as H1 H2; eqb; subst t r;
  repeat match goal with H : mtch _ _ = Some _ |- _ => apply mtch_some in H end; subst.
  all: match goal with
  | |- exists sp, longest_operator (?a :: ?b :: ?d :: ?r) sp ?t /\ (?a :: ?b :: ?d :: ?r) = sp ++ ?r =>
      apply (FIN [a; b; d]); [cbn; lia|rewrite operators_ops; unfold ops; cbn; tauto|reflexivity|]
  | |- exists sp, longest_operator (?a :: ?b :: ?r) sp ?t /\ (?a :: ?b :: ?r) = sp ++ ?r =>
      apply (FIN [a; b]); [cbn; lia|rewrite operators_ops; unfold ops; cbn; tauto|reflexivity|]
  | |- exists sp, longest_operator (?a :: ?r) sp ?t /\ (?a :: ?r) = sp ++ ?r =>
      apply (FIN [a]); [cbn; lia|rewrite operators_ops; unfold ops; cbn; tauto|reflexivity|]
  end.
  all: clear FIN; longest.
Qed.

Lemma oper_some sp t s : In (sp, t) operators -> oper (sp ++ s) <> None.
Proof.
  intros I. rewrite operators_ops in I; unfold ops in I.
  repeat (destruct I as [I|I]; [injection I as <- <-; unfold oper, ifm; cbn [app mtch N.eqb Pos.eqb];
    repeat match goal with |- context [match ?x with Some _ => _ | None => _ end] => destruct x end; discriminate|]). destruct I.
Qed.

Fixpoint assoc_ok (l : list (text * tt)) : bool :=
  match l with [] => true | (sp, _) :: l => negb (existsb (fun p => if list_eq_dec N.eq_dec sp (fst p) then true else false) l) && assoc_ok l end.
Lemma assoc_unique l : assoc_ok l = true -> forall w t t', In (w, t) l -> In (w, t') l -> t = t'.
Proof.
  induction l as [|[x y] l IH]; cbn [assoc_ok In]; [tauto|]. intros H. apply andb_prop in H as [A B]. apply negb_true_iff in A.
  assert (NO : forall t, ~ In (x, t) l).
  { intros t I. assert (existsb (fun p => if list_eq_dec N.eq_dec x (fst p) then true else false) l = true); [|congruence].
    apply existsb_exists. exists (x, t). split; [auto|]. cbn [fst]. destruct (list_eq_dec N.eq_dec x x); congruence. }
  intros w t t' [E|I] [E'|I'].
  - congruence.
  - injection E as <- <-. destruct (NO _ I').
  - injection E' as <- <-. destruct (NO _ I).
  - eauto.
Qed.
Lemma operators_unique w t t' : In (w, t) operators -> In (w, t') operators -> t = t'.
Proof. apply assoc_unique. vm_compute. reflexivity. Qed.

Lemma app_same_length {A} (a b c d : list A) : a ++ b = c ++ d -> length a = length c -> a = c /\ b = d.
Proof.
  revert c. induction a as [|x a IH]; intros [|y c] E L; try discriminate; [auto|].
  cbn in E. injection E as -> E. injection L as L. destruct (IH c E L) as [-> ->]. auto.
Qed.

Lemma oper_iff s t r : oper s = Some (t, r) <-> exists sp, longest_operator s sp t /\ s = sp ++ r.
Proof.
  split; [apply oper_sound|]. intros (sp & (I & _ & M) & E).
  destruct (oper s) as [[t' r']|] eqn:O; [|destruct (oper_some sp t r I); congruence].
  destruct (oper_sound s t' r' O) as (sp' & (I' & _ & M') & E').
  pose proof (M _ _ _ I' E'). pose proof (M' _ _ _ I E).
  rewrite E in E'. destruct (app_same_length _ _ _ _ E') as [-> ->]; [lia|].
  rewrite (operators_unique _ _ _ I I'). reflexivity.
Qed.
Lemma oper_none s : oper s = None <-> forall sp t r, In (sp, t) operators -> s <> sp ++ r.
Proof.
  split.
  - intros O sp t r I E. apply (oper_some sp t r I). rewrite <- E. exact O.
  - intros N. destruct (oper s) as [[t r]|] eqn:O; [|reflexivity].
    destruct (oper_sound s t r O) as (sp & (I & _ & _) & E). destruct (N _ _ _ I E).
Qed.
