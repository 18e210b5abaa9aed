(* Interleaving semantics for programs made of atomic steps on a shared state, with futex sleep and wake-up.
   Nothing here models repository code; the lib/thread models instantiate it. *)
From Verif Require Import Base.

(* what a step asks of the kernel: nothing, wake one or all threads asleep on a futex *)
Inductive eff := NoEff | Wake1 (a : nat) | WakeAll (a : nat).

(* P: thread-local states, S: shared states, E: observable events.
   calls: the operations a thread may start; act: its next atomic step; asleep: the futex it sleeps on;
   woken: where it continues when woken. *)
Record sys (P S E : Type) := mksys {
  calls : nat -> P -> S -> list (P * list E);
  act : nat -> P -> S -> option (P * S * eff * list E);
  asleep : P -> option nat;
  woken : P -> P }.
Arguments calls {P S E}. Arguments act {P S E}. Arguments asleep {P S E}. Arguments woken {P S E}. Arguments mksys {P S E}.

Definition sleeps_on {P S E} (y : sys P S E) (a : nat) (p : P) : bool :=
  match asleep y p with Some b => b =? a | None => false end.
Definition wake_all {P S E} (y : sys P S E) (a : nat) (ps : list P) : list P :=
  map (fun p => if sleeps_on y a p then woken y p else p) ps.

(* One step of one thread.  A sleeping thread may also wake up spuriously. *)
Inductive step {P S E} (y : sys P S E) : S * list P -> list E -> S * list P -> Prop :=
| step_call s ps t p p' e : nth_error ps t = Some p -> In (p', e) (calls y t p s) -> step y (s, ps) e (s, upd ps t p')
| step_act s ps t p p' s' e : nth_error ps t = Some p -> act y t p s = Some (p', s', NoEff, e) -> step y (s, ps) e (s', upd ps t p')
| step_wake s ps t p p' s' a e j q : nth_error ps t = Some p -> act y t p s = Some (p', s', Wake1 a, e) ->
    nth_error ps j = Some q -> j <> t -> sleeps_on y a q = true ->
    step y (s, ps) e (s', upd (upd ps t p') j (woken y q))
| step_wake_none s ps t p p' s' a e : nth_error ps t = Some p -> act y t p s = Some (p', s', Wake1 a, e) ->
    (forall j q, nth_error ps j = Some q -> j <> t -> sleeps_on y a q = false) -> step y (s, ps) e (s', upd ps t p')
| step_wake_all s ps t p p' s' a e : nth_error ps t = Some p -> act y t p s = Some (p', s', WakeAll a, e) ->
    step y (s, ps) e (s', wake_all y a (upd ps t p'))
| step_spurious s ps t p a : nth_error ps t = Some p -> asleep y p = Some a -> step y (s, ps) [] (s, upd ps t (woken y p)).

(* executions of any length, with the events they produce *)
Inductive run {P S E} (y : sys P S E) : S * list P -> list E -> S * list P -> Prop :=
| run_nil c : run y c [] c
| run_cons c e c1 es c2 : step y c e c1 -> run y c1 es c2 -> run y c (e ++ es) c2.

Lemma run_inv {P S E} (y : sys P S E) (Inv : S * list P -> Prop) : (forall c e c', Inv c -> step y c e c' -> Inv c') ->
  forall c es c', Inv c -> run y c es c' -> Inv c'.
Proof. intros H c es c' Hc R. induction R; eauto. Qed.
Lemma run_app {P S E} (y : sys P S E) c es c1 fs c2 : run y c es c1 -> run y c1 fs c2 -> run y c (es ++ fs) c2.
Proof. intros R1 R2. induction R1; cbn; auto. rewrite <- app_assoc. econstructor; eauto. Qed.
Lemma run_one {P S E} (y : sys P S E) c e c' : step y c e c' -> run y c e c'.
Proof. intros H. rewrite <- (app_nil_r e). econstructor; [exact H|constructor]. Qed.

(* ---------- counting threads ---------- *)
Definition count {A} (p : A -> bool) (l : list A) : nat := length (filter p l).
Definition b2n (b : bool) : nat := if b then 1 else 0.
Lemma count_cons {A} (p : A -> bool) x l : count p (x :: l) = b2n (p x) + count p l.
Proof. unfold count. cbn. destruct (p x); reflexivity. Qed.
Lemma count_upd {A} (p : A -> bool) l : forall i x y, nth_error l i = Some x -> count p (upd l i y) + b2n (p x) = count p l + b2n (p y).
Proof.
  induction l as [|h l IH]; intros [|i] x y H; cbn in H; try discriminate.
  - injection H as ->. cbn [upd]. rewrite !count_cons. lia.
  - cbn [upd]. rewrite !count_cons. specialize (IH i x y H). lia.
Qed.
Lemma count_pos {A} (p : A -> bool) l i x : nth_error l i = Some x -> p x = true -> 0 < count p l.
Proof.
  revert i; induction l as [|h l IH]; intros [|i] H Hp; cbn in H; try discriminate; rewrite count_cons.
  - injection H as ->. rewrite Hp. cbn. lia.
  - specialize (IH i H Hp). lia.
Qed.
Lemma count_ex {A} (p : A -> bool) l : 0 < count p l -> exists i x, nth_error l i = Some x /\ p x = true.
Proof.
  induction l as [|h l IH]; [cbn; lia|]. rewrite count_cons. intros H. destruct (p h) eqn:E.
  - exists 0, h. auto.
  - destruct IH as (i & x & ? & ?); [cbn in H; lia|]. exists (S i), x. auto.
Qed.
Lemma count_two {A} (p : A -> bool) l i x j y : nth_error l i = Some x -> p x = true -> nth_error l j = Some y -> p y = true -> i <> j -> 2 <= count p l.
Proof.
  revert i j; induction l as [|h l IH]; intros [|i] [|j] Hi Hx Hj Hy Ne; cbn in Hi, Hj; try discriminate; try congruence; rewrite count_cons.
  - injection Hi as ->. rewrite Hx. pose proof (count_pos p l j y Hj Hy). cbn. lia.
  - injection Hj as ->. rewrite Hy. pose proof (count_pos p l i x Hi Hx). cbn. lia.
  - assert (2 <= count p l) by (apply (IH i j); auto). lia.
Qed.
Lemma count_zero {A} (p : A -> bool) l i x : count p l = 0 -> nth_error l i = Some x -> p x = false.
Proof. intros H Hi. destruct (p x) eqn:E; auto. pose proof (count_pos p l i x Hi E). lia. Qed.
Lemma count_none {A} (p : A -> bool) l : (forall i x, nth_error l i = Some x -> p x = false) -> count p l = 0.
Proof. intros H. destruct (count p l) eqn:E; auto. destruct (count_ex p l) as (i & x & Hi & Hx); [lia|]. rewrite (H i x Hi) in Hx. discriminate. Qed.
Lemma count_le {A} (p : A -> bool) l : count p l <= length l.
Proof. unfold count. induction l as [|h l IH]; cbn; auto. destruct (p h); cbn; lia. Qed.
Lemma count_imp {A} (p q : A -> bool) l : (forall x, p x = true -> q x = true) -> count p l <= count q l.
Proof. intros H. induction l as [|h l IH]; [auto|]. rewrite !count_cons. specialize (H h). destruct (p h), (q h); cbn; try lia. Qed.
Lemma count_or {A} (p q : A -> bool) l : (forall x, p x = true -> q x = true -> False) -> count (fun x => p x || q x) l = count p l + count q l.
Proof. intros H. induction l as [|h l IH]; [auto|]. rewrite !count_cons, IH. specialize (H h). destruct (p h), (q h); cbn; try lia. Qed.
Lemma count_map {A} (p : A -> bool) f l : (forall x, p (f x) = p x) -> count p (map f l) = count p l.
Proof. intros H. induction l as [|h l IH]; [auto|]. cbn [map]. rewrite !count_cons, H, IH. reflexivity. Qed.
Lemma nth_error_repeat_inv {A} (x : A) n i y : nth_error (repeat x n) i = Some y -> y = x.
Proof. revert i; induction n as [|n IH]; intros [|i] H; cbn in H; try discriminate; [congruence|eauto]. Qed.
Lemma count_repeat {A} (p : A -> bool) x n : p x = false -> count p (repeat x n) = 0.
Proof. intros H. apply count_none. intros i y E. apply nth_error_repeat_inv in E. now subst. Qed.
Lemma nth_error_upd_inv {A} (l : list A) i x j y : nth_error (upd l i x) j = Some y -> i = j /\ y = x \/ i <> j /\ nth_error l j = Some y.
Proof.
  rewrite nth_error_upd. destruct (Nat.eqb_spec i j); cbn [andb]; [|auto]. destruct (Nat.ltb_spec i (length l)); intros H0.
  - left. split; auto. congruence.
  - subst. rewrite (proj2 (nth_error_None l j)) in H0 by lia. discriminate.
Qed.
Lemma nth_error_upd_same {A} (l : list A) i x y : nth_error l i = Some y -> nth_error (upd l i x) i = Some x.
Proof. intros H. rewrite nth_error_upd, Nat.eqb_refl. assert (i < length l) by (apply nth_error_Some; congruence). destruct (Nat.ltb_spec i (length l)); [reflexivity|lia]. Qed.
Lemma nth_error_upd_ne {A} (l : list A) i x j : i <> j -> nth_error (upd l i x) j = nth_error l j.
Proof. intros H. rewrite nth_error_upd. destruct (Nat.eqb_spec i j); [congruence|reflexivity]. Qed.
Lemma upd_upd {A} (l : list A) i x y : upd (upd l i x) i y = upd l i y.
Proof. revert i; induction l as [|h l IH]; intros [|i]; cbn; auto. now rewrite IH. Qed.
Lemma upd_comm {A} (l : list A) i j x y : i <> j -> upd (upd l i x) j y = upd (upd l j y) i x.
Proof. revert i j; induction l as [|h l IH]; intros [|i] [|j] H; cbn; auto; [congruence|]. rewrite IH; auto. Qed.

(* executions in which no thread starts a new operation and nobody wakes up spuriously *)
Inductive istep {P S E} (y : sys P S E) : S * list P -> list E -> S * list P -> Prop :=
| istep_act s ps t p p' s' e : nth_error ps t = Some p -> act y t p s = Some (p', s', NoEff, e) -> istep y (s, ps) e (s', upd ps t p')
| istep_wake s ps t p p' s' a e j q : nth_error ps t = Some p -> act y t p s = Some (p', s', Wake1 a, e) ->
    nth_error ps j = Some q -> j <> t -> sleeps_on y a q = true ->
    istep y (s, ps) e (s', upd (upd ps t p') j (woken y q))
| istep_wake_none s ps t p p' s' a e : nth_error ps t = Some p -> act y t p s = Some (p', s', Wake1 a, e) ->
    (forall j q, nth_error ps j = Some q -> j <> t -> sleeps_on y a q = false) -> istep y (s, ps) e (s', upd ps t p')
| istep_wake_all s ps t p p' s' a e : nth_error ps t = Some p -> act y t p s = Some (p', s', WakeAll a, e) ->
    istep y (s, ps) e (s', wake_all y a (upd ps t p')).
Inductive irun {P S E} (y : sys P S E) : S * list P -> list E -> S * list P -> Prop :=
| irun_nil c : irun y c [] c
| irun_cons c e c1 es c2 : istep y c e c1 -> irun y c1 es c2 -> irun y c (e ++ es) c2.
Lemma istep_step {P S E} (y : sys P S E) c e c' : istep y c e c' -> step y c e c'.
Proof. intros H. destruct H; [eapply step_act|eapply step_wake|eapply step_wake_none|eapply step_wake_all]; eauto. Qed.
Lemma irun_run {P S E} (y : sys P S E) c e c' : irun y c e c' -> run y c e c'.
Proof. intros H. induction H; [constructor|]. econstructor; eauto using istep_step. Qed.
Lemma irun_act {P S E} (y : sys P S E) s ps t p p' s' e es c2 : nth_error ps t = Some p -> act y t p s = Some (p', s', NoEff, e) ->
  irun y (s', upd ps t p') es c2 -> irun y (s, ps) (e ++ es) c2.
Proof. intros. econstructor; eauto. eapply istep_act; eauto. Qed.

(* concrete executions, for examples: thread t makes its i-th possible call, takes a step, takes a step waking j, or wakes spuriously *)
Inductive move := Call (t i : nat) | Act (t : nat) | ActWake (t j : nat) | Spurious (t : nat).
Definition do_move {P S E} (y : sys P S E) (m : move) (c : S * list P) : option (list E * (S * list P)) :=
  let '(s, ps) := c in
  match m with
  | Call t i => match nth_error ps t with
    | Some p => match nth_error (calls y t p s) i with Some (p', e) => Some (e, (s, upd ps t p')) | None => None end | None => None end
  | Act t => match nth_error ps t with
    | Some p => match act y t p s with
      | Some (p', s', NoEff, e) => Some (e, (s', upd ps t p'))
      | Some (p', s', WakeAll a, e) => Some (e, (s', wake_all y a (upd ps t p')))
      | _ => None end | None => None end
  | ActWake t j => match nth_error ps t, nth_error ps j with
    | Some p, Some q => match act y t p s with
      | Some (p', s', Wake1 a, e) => if sleeps_on y a q && negb (Nat.eqb j t) then Some (e, (s', upd (upd ps t p') j (woken y q))) else None
      | _ => None end | _, _ => None end
  | Spurious t => match nth_error ps t with
    | Some p => match asleep y p with Some _ => Some ([], (s, upd ps t (woken y p))) | None => None end | None => None end
  end.
Fixpoint script {P S E} (y : sys P S E) (l : list move) (c : S * list P) : option (list E * (S * list P)) :=
  match l with
  | [] => Some ([], c)
  | m :: l => match do_move y m c with
    | Some (e, c1) => match script y l c1 with Some (es, c2) => Some (e ++ es, c2) | None => None end | None => None end
  end.
Lemma do_move_step {P S E} (y : sys P S E) m c e c' : do_move y m c = Some (e, c') -> step y c e c'.
Proof.
  destruct c as [s ps]. destruct m as [t i|t|t j|t]; cbn [do_move].
  - destruct (nth_error ps t) as [p|] eqn:Ep; [|discriminate]. destruct (nth_error (calls y t p s) i) as [[p' e']|] eqn:Ec; [|discriminate].
    intros H; injection H as <- <-. eapply step_call; eauto. eapply nth_error_In; eauto.
  - destruct (nth_error ps t) as [p|] eqn:Ep; [|discriminate]. destruct (act y t p s) as [[[[p' s'] [|a|a]] e']|] eqn:Ea; try discriminate;
      intros H; injection H as <- <-; [eapply step_act|eapply step_wake_all]; eauto.
  - destruct (nth_error ps t) as [p|] eqn:Ep; [|discriminate]. destruct (nth_error ps j) as [q|] eqn:Eq; [|discriminate].
    destruct (act y t p s) as [[[[p' s'] [|a|a]] e']|] eqn:Ea; try discriminate. destruct (sleeps_on y a q) eqn:Es; [|discriminate]. cbn [andb].
    destruct (Nat.eqb_spec j t); [discriminate|]. cbn [negb]. intros H; injection H as <- <-. eapply step_wake; eauto.
  - destruct (nth_error ps t) as [p|] eqn:Ep; [|discriminate]. destruct (asleep y p) eqn:Ea; [|discriminate].
    intros H; injection H as <- <-. eapply step_spurious; eauto.
Qed.
Lemma script_run {P S E} (y : sys P S E) l : forall c es c', script y l c = Some (es, c') -> run y c es c'.
Proof.
  induction l as [|m l IH]; intros c es c' H; cbn [script] in H; [injection H as <- <-; constructor|].
  destruct (do_move y m c) as [[e c1]|] eqn:Em; [|discriminate]. destruct (script y l c1) as [[e2 c2]|] eqn:El; [|discriminate].
  injection H as <- <-. eapply run_cons; eauto using do_move_step.
Qed.

(* sums over the threads *)
Definition tot {A} (f : A -> Z) (l : list A) : Z := fold_right (fun x s => (f x + s)%Z) 0%Z l.
Lemma tot_upd {A} (f : A -> Z) (l : list A) i x y : nth_error l i = Some x -> (tot f (upd l i y) = tot f l - f x + f y)%Z.
Proof.
  revert i; induction l as [|h l IH]; intros [|i] H; cbn in H; try discriminate.
  - injection H as ->. cbn. lia.
  - cbn [upd tot fold_right]. fold (tot f l). fold (tot f (upd l i y)). rewrite (IH _ H). lia.
Qed.
Lemma tot_ge {A} (f : A -> Z) (l : list A) i x : (forall x, 0 <= f x)%Z -> nth_error l i = Some x -> (f x <= tot f l)%Z.
Proof.
  intros P. revert i; induction l as [|h l IH]; intros [|i] H; cbn in H; try discriminate; cbn [tot fold_right]; fold (tot f l).
  - injection H as ->. assert (0 <= tot f l)%Z; [|lia]. clear - P. induction l; cbn; [lia|]. specialize (P a). unfold tot in *. lia.
  - specialize (IH _ H). pose proof (P h). lia.
Qed.
Lemma tot_nonneg {A} (f : A -> Z) (l : list A) : (forall x, 0 <= f x)%Z -> (0 <= tot f l)%Z.
Proof. intros P. induction l; cbn; [lia|]. specialize (P a). unfold tot in *. lia. Qed.
Lemma tot_two {A} (f : A -> Z) (l : list A) i x j y : (forall x, 0 <= f x)%Z -> nth_error l i = Some x -> nth_error l j = Some y -> i <> j -> (f x + f y <= tot f l)%Z.
Proof.
  intros P. revert i j; induction l as [|h l IH]; intros [|i] [|j] Hi Hj Ne; cbn in Hi, Hj; try discriminate; try congruence; cbn [tot fold_right]; fold (tot f l).
  - injection Hi as ->. pose proof (tot_ge f l j y P Hj). lia.
  - injection Hj as ->. pose proof (tot_ge f l i x P Hi). lia.
  - pose proof (IH i j Hi Hj ltac:(lia)). pose proof (P h). lia.
Qed.
Lemma tot_zero {A} (f : A -> Z) (l : list A) i x : (forall x, 0 <= f x)%Z -> tot f l = 0%Z -> nth_error l i = Some x -> f x = 0%Z.
Proof. intros P Z H. pose proof (tot_ge f l i x P H). pose proof (P x). lia. Qed.
Lemma tot_ex {A} (f : A -> Z) (l : list A) : (0 < tot f l)%Z -> exists i x, nth_error l i = Some x /\ (0 < f x)%Z.
Proof.
  induction l as [|h l IH]; cbn [tot fold_right]; [lia|]. fold (tot f l). intros H. destruct (Z_lt_dec 0 (f h)).
  - exists 0%nat, h. auto.
  - destruct IH as (i & x & Hi & Hx); [lia|]. exists (S i), x. auto.
Qed.
Lemma tot_repeat {A} (f : A -> Z) x n : f x = 0%Z -> tot f (repeat x n) = 0%Z.
Proof. intros H. induction n; cbn; [reflexivity|]. unfold tot in *. lia. Qed.
Lemma tot_map {A} (f : A -> Z) g (l : list A) : (forall x, f (g x) = f x) -> tot f (map g l) = tot f l.
Proof. intros H. induction l; cbn; [reflexivity|]. unfold tot in *. rewrite H, IHl. reflexivity. Qed.
