(* C42: wait groups. *)
From Verif Require Import Base Conc Wg_Spec Wg_Model.
Open Scope Z_scope.

Definition slp p := match p with Asleep => true | _ => false end.
Definition padd p := match p with PAdd => true | _ => false end.
Definition pall p := match p with PWakeAll => true | PChk v => v =? 1 | _ => false end.
Definition okp p := match p with WWait v => v <> 0 | _ => True end.

Lemma W32_pos : 0 < W32. Proof. reflexivity. Qed.
Definition remaining (rem : Z) (es : list event) : Z := fold_left (fun r e => match e with PostCall _ => r - 1 | _ => r end) es rem.
Lemma remaining_app a b r : remaining r (a ++ b) = remaining (remaining r a) b.
Proof. unfold remaining. apply fold_left_app. Qed.
Lemma waits_for_app : forall a b r, waits_for r (a ++ b) <-> waits_for r a /\ waits_for (remaining r a) b.
Proof.
  induction a as [|[t|t] a IH]; intros b r; cbn [app waits_for remaining fold_left]; [tauto| |]; rewrite IH; unfold remaining; tauto.
Qed.

(* ---------- safety: done = posts whose decrement has happened; rem = n minus the posts called so far ---------- *)
Definition SInv (n : Z) (c : wg * list pc) (rem : Z) : Prop :=
  0 <= n < W32 /\ exists done, 0 <= done /\ done + Z.of_nat (count padd (snd c)) = n - rem /\ val (fst c) = (n - done) mod W32.
Lemma sinv_same n s ps rem t p p' s' : SInv n (s, ps) rem -> nth_error ps t = Some p -> val s' = val s -> padd p = padd p' -> SInv n (s', upd ps t p') rem.
Proof.
  intros (N & done & D0 & D1 & D2) Ht V P. cbn [fst snd] in *. split; auto. exists done. cbn [fst snd].
  pose proof (count_upd padd ps t p p' Ht) as U. rewrite P in U. rewrite V. repeat split; auto. lia.
Qed.
Lemma sinv_ret n s ps rem : SInv n (s, ps) rem -> val s = 0 -> rem <= 0.
Proof.
  intros (N & done & D0 & D1 & D2) E. cbn [fst snd] in *. rewrite E in D2. symmetry in D2. apply Z.mod_divide in D2; [|discriminate].
  destruct D2 as [k Hk]. pose proof W32_pos as P. assert (k <= 0) by (clear - Hk P N D0; nia). assert (k * W32 <= 0) by (clear - H P; nia). lia.
Qed.
Lemma sinv_act y n s ps rem t p p' s' f e : y = fwg \/ y = swg -> SInv n (s, ps) rem -> nth_error ps t = Some p -> Conc.act y t p s = Some (p', s', f, e) ->
  waits_for rem e /\ SInv n (s', upd ps t p') (remaining rem e).
Proof.
  intros Y I Ht Ha. assert (A : act t p s = Some (p', s', f, e) \/ sact t p s = Some (p', s', f, e)) by (destruct Y; subst y; auto).
  pose proof (sinv_ret _ _ _ _ I) as Rt.
  assert (PA : p = PAdd -> p' = PChk (val s) -> s' = mkwg_ ((val s - 1) mod W32) false -> e = [] -> waits_for rem e /\ SInv n (s', upd ps t p') (remaining rem e)).
  { intros -> -> -> ->. split; [exact Logic.I|]. destruct I as (N & done & D0 & D1 & D2). split; auto. exists (done + 1).
    pose proof (count_upd padd ps t _ (PChk (val s)) Ht) as U. cbn [fst snd padd b2n val remaining fold_left] in *. repeat split; try lia.
    rewrite D2, Zminus_mod_idemp_l. f_equal. lia. }
  destruct A as [A|A]; unfold act, sact in A; (destruct (dead s); [discriminate|]); destruct p; try discriminate A;
    try (apply PA; congruence);
    repeat (match type of A with (if ?b then _ else _) = _ => destruct b eqn:?G end);
    injection A as <- <- <- <-; cbn [waits_for remaining fold_left]; (split; [auto; try (split; [apply Rt; now apply Z.eqb_eq|auto])|]);
    eapply sinv_same; eauto; try reflexivity. all: destruct (_ =? _); reflexivity.
Qed.
Lemma sinv_step y n c rem e c' : y = fwg \/ y = swg -> SInv n c rem -> step y c e c' -> waits_for rem e /\ SInv n c' (remaining rem e).
Proof.
  intros Y I H.
  assert (WK : forall s ps rem t p, SInv n (s, ps) rem -> nth_error ps t = Some p -> SInv n (s, upd ps t (woken y p)) rem).
  { intros. eapply sinv_same; eauto. destruct Y; subst y; [destruct p|]; reflexivity. }
  destruct H as [s ps t p p' e Ht Hc|s ps t p p' s' e Ht Ha|s ps t p p' s' a e j q Ht Ha Hj Nj Hq|s ps t p p' s' a e Ht Ha Hn|s ps t p p' s' a e Ht Ha|s ps t p a Ht Ha].
  - assert (Hc2 : In (p', e) (calls t p s)) by (destruct Y; subst y; exact Hc). unfold calls in Hc2. destruct (dead s); [contradiction|].
    destruct p; try contradiction. destruct Hc2 as [X|[X|[]]]; injection X as <- <-; cbn [waits_for remaining fold_left]; (split; [exact Logic.I|]).
    + eapply sinv_same; eauto.
    + destruct I as (N & done & D0 & D1 & D2). split; auto. exists done. pose proof (count_upd padd ps t _ PAdd Ht) as U. cbn [fst snd padd b2n] in *. repeat split; auto. lia.
  - eapply sinv_act; eauto.
  - destruct (sinv_act _ _ _ _ _ _ _ _ _ _ _ Y I Ht Ha) as [A B]. split; auto. apply WK; auto. rewrite nth_error_upd_ne; auto.
  - eapply sinv_act; eauto.
  - destruct (sinv_act _ _ _ _ _ _ _ _ _ _ _ Y I Ht Ha) as [A B]. split; auto. destruct B as (N & done & D0 & D1 & D2). split; auto. exists done. cbn [fst snd] in *.
    unfold wake_all. rewrite count_map; auto. intros x. destruct (sleeps_on y a x); auto. destruct Y; subst y; [destruct x|]; reflexivity.
  - cbn [waits_for remaining fold_left]. split; [exact Logic.I|]. apply WK; auto.
Qed.
Lemma sinv_run y n c es c' : y = fwg \/ y = swg -> run y c es c' -> forall rem, SInv n c rem -> waits_for rem es /\ SInv n c' (remaining rem es).
Proof.
  intros Y R. induction R as [c|c e c1 es c2 H R IH]; intros rem I; [cbn; auto|].
  destruct (sinv_step _ _ _ _ _ _ Y I H) as [A B]. destruct (IH _ B) as [A2 B2]. rewrite waits_for_app, remaining_app. auto.
Qed.
Lemma start_sinv n v : 0 <= v < W32 -> SInv v (start n v) v.
Proof. intros V. split; auto. exists 0. unfold start. cbn [fst snd]. rewrite count_repeat by reflexivity. cbn [val mkwg]. rewrite Z.mod_small; lia. Qed.

(* Any number of threads, calls and any schedule, underflow included: wgwait on a group made with v returns only after v
   calls of wgpost.  Both implementations. *)
Theorem C42_futex_waits_for_posts n v es c : 0 <= v < 2 ^ 32 -> run fwg (start n v) es c -> waits_for v es.
Proof. intros V R. exact (proj1 (sinv_run fwg v _ _ _ (or_introl eq_refl) R v (start_sinv n v V))). Qed.
Print Assumptions C42_futex_waits_for_posts.
Theorem C42_spin_waits_for_posts n v es c : 0 <= v < 2 ^ 32 -> run swg (start n v) es c -> waits_for v es.
Proof. intros V R. exact (proj1 (sinv_run swg v _ _ _ (or_intror eq_refl) R v (start_sinv n v V))). Qed.
Print Assumptions C42_spin_waits_for_posts.

(* ---------- no lost wake-up ---------- *)
Definition LInv (c : wg * list pc) : Prop :=
  0 <= val (fst c) < W32 /\ (forall t p, nth_error (snd c) t = Some p -> okp p) /\
  ((0 < count slp (snd c))%nat -> val (fst c) <> 0 \/ (0 < count pall (snd c))%nat).
Lemma okp_upd ps t p' : (forall t p, nth_error ps t = Some p -> okp p) -> okp p' -> forall u q, nth_error (upd ps t p') u = Some q -> okp q.
Proof. intros O K u q H. apply nth_error_upd_inv in H as [(E & ->)|(Ne & H)]; eauto. Qed.
Lemma linv_upd s ps t p p' s' : LInv (s, ps) -> nth_error ps t = Some p -> 0 <= val s' < W32 -> okp p' ->
  (val s' <> 0 \/ pall p' = true \/ slp p' = false /\ (pall p = true -> pall p' = true) /\ (val s' = 0 -> val s = 0)) -> LInv (s', upd ps t p').
Proof.
  intros (V & O & S) Ht V' O' C. cbn [fst snd] in *. repeat split; cbn [fst snd]; try lia; [apply okp_upd; auto|].
  intros L. pose proof (count_upd slp ps t p p' Ht) as U1. pose proof (count_upd pall ps t p p' Ht) as U2.
  destruct C as [C|[C|(C1 & C2 & C3)]]; auto; [rewrite C in U2; cbn in U2; right; pose proof (count_pos pall (upd ps t p') t p' (nth_error_upd_same _ _ _ _ Ht) C); lia|].
  destruct (Z.eq_dec (val s') 0) as [E|E]; auto. right. rewrite C1 in U1. destruct S as [S|S]; [unfold b2n in *; destruct (slp p); lia|specialize (C3 E); lia|].
  destruct (pall p) eqn:P; [rewrite (C2 eq_refl) in U2; lia|]. unfold b2n in *; destruct (pall p'); lia.
Qed.
Lemma linv_step c e c' : LInv c -> step fwg c e c' -> dead (fst c') = false -> LInv c'.
Proof.
  intros I H. pose proof W32_pos. pose proof (proj1 I) as V. pose proof (proj1 (proj2 I)) as O.
  destruct H as [s ps t p p' e Ht Hc|s ps t p p' s' e Ht Ha|s ps t p p' s' a e j q Ht Ha Hj Nj Hq|s ps t p p' s' a e Ht Ha Hn|s ps t p p' s' a e Ht Ha|s ps t p a Ht Ha];
    cbn [fst snd fwg Conc.act Conc.calls] in *; intros Dd.
  - unfold calls in Hc. destruct (dead s); [contradiction|]. destruct p; try contradiction.
    destruct Hc as [X|[X|[]]]; injection X as <- <-; eapply linv_upd; eauto; cbn; auto; right; right; split; auto.
  - unfold act in Ha. destruct (dead s) eqn:D; [discriminate|]. destruct p; try discriminate Ha.
    + destruct (Z.eqb_spec (val s) 0); injection Ha as <- <- <-; eapply linv_upd; eauto; cbn; auto.
    + pose proof (O t _ Ht) as Ov. cbn in Ov. destruct (Z.eqb_spec (val s) v); injection Ha as <- <- <-; eapply linv_upd; eauto; cbn; auto; left; congruence.
    + assert (E : p' = PChk (val s) /\ s' = mkwg_ ((val s - 1) mod W32) false) by (split; congruence). destruct E as [-> ->].
      eapply linv_upd; eauto; [cbn [val]; apply Z.mod_pos_bound; lia|exact Logic.I|]. cbn [val pall slp].
      destruct (Z.eqb_spec (val s) 1); auto. left. destruct (Z.eq_dec (val s) 0) as [E|E]; [rewrite E; discriminate|]. rewrite Z.mod_small; lia.
    + destruct (Z.eqb_spec v 1) as [E|E]; [|destruct (v >? 0)]; injection Ha as <- <- <-; try discriminate Dd; eapply linv_upd; eauto; cbn; auto.
      right; right; repeat split; auto. intros X. apply Z.eqb_eq in X. congruence.
  - exfalso. unfold act in Ha. destruct (dead s); [discriminate|]. destruct p; try discriminate Ha;
      repeat (match type of Ha with context [if ?b then _ else _] => destruct b end); discriminate Ha.
  - exfalso. unfold act in Ha. destruct (dead s); [discriminate|]. destruct p; try discriminate Ha;
      repeat (match type of Ha with context [if ?b then _ else _] => destruct b end); discriminate Ha.
  - unfold act in Ha. destruct (dead s); [discriminate|]. destruct p; try discriminate Ha;
      try (repeat (match type of Ha with context [if ?b then _ else _] => destruct b end); discriminate Ha).
    injection Ha as <- <- <- <-. repeat split; cbn [fst snd]; try lia.
    + intros u q Hu. unfold wake_all in Hu. rewrite nth_error_map in Hu. destruct (nth_error (upd ps t Idle) u) as [x|] eqn:Ex; [|discriminate].
      injection Hu as <-. pose proof (okp_upd ps t Idle O Logic.I u x Ex). destruct x; cbn; auto.
    + intros L. exfalso. apply count_ex in L as (u & q & Hu & Hq). unfold wake_all in Hu. rewrite nth_error_map in Hu.
      destruct (nth_error (upd ps t Idle) u) as [x|]; [|discriminate]. injection Hu as <-. destruct x; cbn in Hq; discriminate.
  - cbn in Ha. destruct p; try discriminate. eapply linv_upd; eauto; cbn; auto.
Qed.
Lemma dead_step c e c' : step fwg c e c' -> dead (fst c') = false -> dead (fst c) = false.
Proof.
  intros H. destruct H; cbn [fst fwg Conc.act] in *; auto; match goal with Ha : act _ _ ?s = Some _ |- _ => unfold act in Ha; destruct (dead s); [discriminate|auto] end.
Qed.
Lemma linv_run c es c' : run fwg c es c' -> LInv c -> dead (fst c') = false -> LInv c'.
Proof.
  intros R. induction R as [c|c e c1 es c2 H R IH]; auto. intros I D. apply IH; auto. eapply linv_step; eauto.
  clear - R D. induction R; auto. eapply dead_step; eauto.
Qed.
Lemma start_linv n v : 0 <= v < W32 -> LInv (start n v).
Proof.
  intros V. unfold start. repeat split; cbn [fst snd val mkwg]; try lia; [|rewrite count_repeat by reflexivity; lia].
  intros t p H. apply nth_error_repeat_inv in H. subst. exact I.
Qed.
Lemma all_run s ps t u : dead s = false -> val s = 0 -> nth_error ps u = Some PWakeAll -> nth_error ps t = Some Asleep -> exists c, irun fwg (s, ps) [WgRet t] c.
Proof.
  intros D V Hu Ht. eexists. change [WgRet t] with ([] ++ [WgRet t] ++ []). econstructor.
  - eapply istep_wake_all; [exact Hu|]. cbn. unfold act. rewrite D. reflexivity.
  - eapply (irun_act fwg _ _ t WLoad); [|cbn; unfold act; rewrite D, V; reflexivity|constructor].
    unfold wake_all. rewrite nth_error_map, nth_error_upd_ne by congruence. rewrite Ht. reflexivity.
Qed.
(* Once the count is zero, every sleeping wgwait can be made to return by the threads already inside the library. *)
Theorem C42_no_lost_wakeup n v es s ps t : 0 <= v < 2 ^ 32 -> run fwg (start n v) es (s, ps) -> dead s = false ->
  val s = 0 -> nth_error ps t = Some Asleep -> exists c, irun fwg (s, ps) [WgRet t] c.
Proof.
  intros V R D E Ht. destruct (linv_run _ _ _ R (start_linv n v V) D) as (_ & _ & S). cbn [fst snd] in *.
  destruct S as [S|S]; [eapply count_pos; eauto|congruence|]. apply count_ex in S as (u & p & Hu & Hp). destruct p; try discriminate.
  - cbn in Hp. destruct (all_run s (upd ps u PWakeAll) t u D E) as [c R2]; [eapply nth_error_upd_same; eauto|rewrite nth_error_upd_ne by congruence; auto|].
    exists c. change [WgRet t] with ([] ++ [WgRet t]). eapply irun_act; [exact Hu| |exact R2]. cbn. unfold act. now rewrite D, Hp.
  - eapply all_run; eauto.
Qed.
Print Assumptions C42_no_lost_wakeup.
(* The count is zero exactly when v posts have taken effect (as long as no post overflows it). *)
Theorem C42_count n v es s ps : 0 <= v < 2 ^ 32 -> run fwg (start n v) es (s, ps) ->
  (forall u, nth_error ps u <> Some PAdd) -> 0 <= remaining v es -> val s = remaining v es.
Proof.
  intros V R NP P. destruct (sinv_run fwg v _ _ _ (or_introl eq_refl) R v (start_sinv n v V)) as [_ (_ & done & D0 & D1 & D2)]. cbn [fst snd] in *.
  assert (Z0 : count padd ps = 0%nat). { destruct (count padd ps) eqn:E; auto. exfalso. assert (X : (0 < count padd ps)%nat) by lia. apply count_ex in X as (u & p & Hu & Hp). destruct p; try discriminate. now apply (NP u). }
  rewrite D2, Z.mod_small; [lia|]. unfold W32. lia.
Qed.
Print Assumptions C42_count.

(* Two threads wait for two posts, both asleep when the second post comes. *)
Example C42_example : exists s ps, run fwg (start 3 2) [PostCall 2; PostCall 2] (s, ps) /\ dead s = false /\ val s = 0 /\
  nth_error ps 0 = Some Asleep /\ nth_error ps 1 = Some Asleep.
Proof.
  eexists. eexists. split.
  - apply (script_run fwg [Call 0 0; Act 0; Act 0; Call 2 1; Act 2; Act 2; Spurious 0; Act 0; Act 0; Call 1 0; Act 1; Act 1; Call 2 1; Act 2]). vm_compute. reflexivity.
  - cbn. auto.
Qed.
