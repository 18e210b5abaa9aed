(* A successful unification makes the types the same and keeps what was the same. *)
From Coq Require Import Relations.
From Verif Require Import Base Unify_Spec Unify_Model Unify_Proofs.
Open Scope nat_scope.

Lemma same_list_mono {A} (R R' : A -> A -> Prop) ms ms' : (forall x y, R x y -> R' x y) -> same_list R ms ms' -> same_list R' ms ms'.
Proof. intros H. apply Forall2_mono. intros p q []. auto. Qed.
Lemma alike_mono' strict (R R' : tid -> tid -> Prop) n m : (forall x y, R x y -> R' x y) -> alike strict R n m -> alike strict R' n m.
Proof.
  intros H. destruct strict; [|now apply alike_mono].
  destruct n, m; cbn [alike]; auto; try (apply Forall2_mono; now auto).
  - intros []; auto.
  - intros (? & ? & ?). split; auto. split; auto. eapply Forall2_mono; eauto.
  - now apply same_list_mono.
  - apply same_list_mono. now apply orel_mono.
Qed.
Lemma Forall2_sym {A} (R : A -> A -> Prop) xs ys : Forall2 R xs ys -> Forall2 (fun x y => R y x) ys xs.
Proof. induction 1; constructor; auto. Qed.
Lemma Forall2_comp {A} (R S : A -> A -> Prop) xs : forall ys zs, Forall2 R xs ys -> Forall2 S ys zs -> Forall2 (fun x z => exists y, R x y /\ S y z) xs zs.
Proof. induction xs as [|x xs IH]; intros ys zs H K; inversion H; subst; inversion K; subst; constructor; eauto. Qed.
Lemma orel_sym {A} (R : A -> A -> Prop) x y : orel R x y -> orel (fun a b => R b a) y x.
Proof. destruct x, y; cbn; auto. Qed.
Lemma orel_comp {A} (R S : A -> A -> Prop) x y z : orel R x y -> orel S y z -> orel (fun a c => exists b, R a b /\ S b c) x z.
Proof. destruct x, y, z; cbn; eauto; tauto. Qed.
Lemma members_sym {A} (R : A -> A -> Prop) ms ms' : same_members R ms ms' -> same_members (fun x y => R y x) ms' ms.
Proof. intros (L & C1 & C2). repeat split; auto. Qed.
Lemma covers_comp {A} (R S T : A -> A -> Prop) a b c : (forall x y z, R x y -> S y z -> T x z) -> covers R a b -> covers S b c -> covers T a c.
Proof. intros H C D n x I. destruct (C n x I) as (y & Iy & r). destruct (D n y Iy) as (z & Iz & q). eauto. Qed.
Lemma members_comp {A} (R S : A -> A -> Prop) a b c : same_members R a b -> same_members S b c -> same_members (fun x z => exists y, R x y /\ S y z) a c.
Proof.
  intros (L & C1 & C2) (L' & D1 & D2). split; [congruence|]. split.
  - eapply covers_comp; [|exact C1|exact D1]; cbn; eauto.
  - eapply covers_comp; [|exact D2|exact C2]; cbn; eauto.
Qed.
Lemma alike_sym (R : tid -> tid -> Prop) n m : alike false R n m -> alike false (fun x y => R y x) m n.
Proof.
  destruct n, m; cbn [alike]; auto; try apply Forall2_sym.
  - intros []; auto.
  - intros (? & ? & ?). repeat split; auto. now apply Forall2_sym.
  - apply members_sym.
  - intros H. apply members_sym in H. eapply members_mono; [|exact H]. intros x y O. now apply orel_sym.
Qed.
Lemma alike_comp (R S : tid -> tid -> Prop) n m k : alike false R n m -> alike false S m k -> alike false (fun x z => exists y, R x y /\ S y z) n k.
Proof.
  destruct n, m; cbn [alike]; try tauto; destruct k; cbn [alike]; try tauto; eauto; try congruence; try apply Forall2_comp.
  - intros [-> ?] [-> ?]; eauto.
  - intros (-> & ? & ?) (-> & ? & ?). repeat split; eauto. eapply Forall2_comp; eauto.
  - intros H K. exact (members_comp _ _ _ _ _ H K).
  - intros H K. eapply members_mono; [|exact (members_comp _ _ _ _ _ H K)]. intros x z (y & P & Q). eapply orel_comp; eauto.
Qed.
Lemma alike_refl (R : tid -> tid -> Prop) n : (forall x, R x x) -> isvar n = false -> alike false R n n.
Proof.
  assert (F : forall (S : tid -> tid -> Prop) ts, (forall x, S x x) -> Forall2 S ts ts) by (intros S ts H; induction ts; auto).
  assert (M : forall A (S : A -> A -> Prop) ms, (forall x, S x x) -> same_members S ms ms).
  { intros A S ms H. split; auto. split; intros k t I; eauto. }
  intros H V. destruct n; cbn [alike]; try discriminate V; auto.
  - apply M. intros [x|]; cbn; auto.
Qed.

Section WithHeap.
Variable h : heap.
Notation nd := (nodeof h).
Notation nv := (nv h).

Lemma same_respected strict l : respected strict h l (same strict h l).
Proof.
  intros x y (R & HR & r). destruct (HR x y r) as (a & b & Ha & Hb & E). exists a, b. split; auto. split; auto.
  destruct E as [E|E]; auto. right. eapply alike_mono'; [|exact E]. intros u v r'. exists R. auto.
Qed.
Lemma alike_nv R n m : alike false R n m -> isvar n = false /\ isvar m = false.
Proof. destruct n, m; cbn; auto; tauto. Qed.
Section Total.
Variable l : links.
Hypothesis T : forall x, exists a, rep l x a.
Lemma same_refl x : same false h l x x.
Proof. exists eq. split; auto. intros a b <-. destruct (T a) as [c H]. exists c, c. auto. Qed.
Lemma same_sym x y : same false h l x y -> same false h l y x.
Proof.
  intros (R & HR & r). exists (fun a b => R b a). split; auto. intros a b r'. destruct (HR b a r') as (c & d & Hc & Hd & E).
  exists d, c. split; auto. split; auto. destruct E as [<-|E]; auto. right. now apply alike_sym.
Qed.
Lemma same_trans x y z : same false h l x y -> same false h l y z -> same false h l x z.
Proof.
  intros H K. exists (fun x z => exists y, same false h l x y /\ same false h l y z). split; [|eauto].
  clear x y z H K. intros x z (y & H & K).
  destruct (same_respected _ _ _ _ H) as (a & b & Ha & Hb & E). destruct (same_respected _ _ _ _ K) as (b' & c & Hb' & Hc & E').
  rewrite (rep_fun _ _ _ _ Hb' Hb) in E'. exists a, c. split; auto. split; auto.
  destruct E as [<-|E], E' as [<-|E']; auto; right.
  - eapply alike_mono; [|exact E']. intros u v S. exists u. split; auto. apply same_refl.
  - eapply alike_mono; [|exact E]. intros u v S. exists v. split; auto. apply same_refl.
  - eapply alike_comp; eauto.
Qed.
Lemma same_rep x a : rep l x a -> same false h l x a.
Proof.
  intros H. exists (fun u v => u = x /\ v = a \/ u = v). split; auto. intros u v [[-> ->]|<-].
  - exists a, a. split; auto. split; auto. eapply rep_self; eauto.
  - destruct (T u) as [c Hc]. exists c, c. auto.
Qed.
End Total.

(* all the recorded pairs are matched up: the recorded equalities are real *)
Lemma eqv_same l V : Pre h l V -> (forall x y, V x y -> alike false (eqv h l V) (nd x) (nd y)) -> forall x y, eqv h l V x y -> same false h l x y.
Proof.
  intros P A x y E. exists (eqv h l V). split; auto. clear x y E. intros x y (a & b & Ha & Hb & E). exists a, b.
  split; auto. split; auto. destruct E as [E|(na & nb & C)]; auto.
  clear na nb Ha Hb x y. induction C as [a b H|a|a b C IH|a b c C IH C' IH'].
  - right. auto.
  - now left.
  - destruct IH as [<-|IH]; auto. right. eapply alike_mono; [|apply alike_sym; exact IH]. intros u v. apply eqv_sym.
  - destruct IH as [<-|IH], IH' as [<-|IH']; auto. right. eapply alike_mono; [|eapply alike_comp; eauto].
    intros u v (w & H1 & H2). eapply eqv_trans; eauto.
Qed.
Definition V0 l : relation tid := fun x y => nv x /\ nv y /\ same false h l x y.
Lemma same_eqv l x y : same false h l x y -> eqv h l (V0 l) x y.
Proof.
  intros S. destruct (same_respected _ _ _ _ S) as (a & b & Ha & Hb & [E|E]); exists a, b; split; auto; split; auto.
  destruct (alike_nv _ _ _ E) as [na nb]. right. split; auto. split; auto. apply rst_step. split; auto. split; auto.
  exists (fun u v => u = a /\ v = b \/ same false h l u v). split; auto. intros u v [[-> ->]|K].
  - exists a, b. split; [eapply rep_self; eauto|]. split; [eapply rep_self; eauto|]. right. eapply alike_mono; [|exact E]. auto.
  - destruct (same_respected _ _ _ _ K) as (c & d & Hc & Hd & [E1|E1]); exists c, d; split; auto; split; auto.
    right. eapply alike_mono; [|exact E1]. auto.
Qed.
Lemma wf_pre l : wf h l -> Pre h l (V0 l) /\ (forall x y, V0 l x y -> alike false (eqv h l (V0 l)) (nd x) (nd y)).
Proof.
  intros [T W]. split.
  - split; auto. split; [|intros x y (nx & ny & _); auto]. intros x a nx Ha. specialize (W x a nx Ha).
    destruct (alike_nv _ _ _ W) as [_ na]. split; auto. apply rst_step. split; auto. split; auto. now apply same_rep.
  - intros x y (nx & ny & S). eapply alike_mono; [intros u v; apply same_eqv|].
    destruct (same_respected _ _ _ _ S) as (a & b & Ha & Hb & E).
    pose proof (W x a nx Ha) as Wx. pose proof (alike_sym _ _ _ (W y b ny Hb)) as Wy.
    assert (Tr : forall u v, (exists w, same false h l u w /\ same false h l v w) -> same false h l u v).
    { intros u v (w & A & B). eapply same_trans; eauto. now apply same_sym. }
    destruct E as [<-|E].
    + eapply alike_mono; [|eapply alike_comp; [exact Wx|exact Wy]]. cbn. auto.
    + pose proof (alike_comp _ _ _ _ _ Wx E) as K1. pose proof (alike_comp _ _ _ _ _ K1 Wy) as K2.
      eapply alike_mono; [|exact K2]. cbn. intros u v (w & (w' & A & B) & C). apply Tr. exists w. split; auto.
      eapply same_trans; eauto.
Qed.
Lemma wf_init : wf h (tab init).
Proof.
  assert (T : forall x, exists a, rep (tab init) x a) by (intros x; exists x; now constructor).
  split; auto. intros x a nx H. inversion H as [? E|? ? ? E]; subst; [|discriminate E].
  apply alike_refl; auto. intros y. now apply same_refl.
Qed.
Hypothesis HS : distinct_members h.
Hypothesis HU : distinct_members' h.
Hypothesis HA : one_arity h.
Hypothesis HP : one_param h.

Theorem unify_same f s u v s' : wf h (tab s) -> unify h f s u v = Ok s' ->
  same false h (tab s') u v /\ (forall x y, same false h (tab s) x y -> same false h (tab s') x y) /\ wf h (tab s').
Proof.
  intros W H. destruct (wf_pre _ W) as [P A].
  destruct (good_unify h HS HU HA HP f _ _ _ _ _ P H) as (V' & (((P' & I & M) & N) & _) & E).
  assert (A' : forall x y, V' x y -> alike false (eqv h (tab s') V') (nd x) (nd y)).
  { intros x y Hxy. destruct (N x y Hxy) as [H0|]; auto. eapply alike_mono; [exact M|]. auto. }
  pose proof (eqv_same _ _ P' A') as ES. split; auto. split.
  - intros x y S. apply ES, M. now apply same_eqv.
  - split; [apply P'|]. intros x a nx Ha. eapply alike_mono; [exact ES|].
    destruct P' as (T & C & Nv). destruct (C x a nx Ha) as [na Ca].
    assert (K : x = a \/ alike false (eqv h (tab s') V') (nd x) (nd a)).
    { clear Ha nx na. induction Ca as [p q H1|p|p q C1 IH|p q r C1 IH C2 IH'].
      - right. auto.
      - now left.
      - destruct IH as [<-|IH]; auto. right. eapply alike_mono; [|apply alike_sym; exact IH]. intros w z. apply eqv_sym.
      - destruct IH as [<-|IH], IH' as [<-|IH']; auto. right. eapply alike_mono; [|eapply alike_comp; eauto].
        intros w z (m & H1 & H2). eapply eqv_trans; eauto. }
    destruct K as [<-|K]; auto. apply alike_refl; auto. intros y. apply eqv_refl. split; auto.
Qed.
Lemma same_final l : wf h l -> Final h (same false h l).
Proof.
  intros W. pose proof W as [T Wa]. split; [now apply same_refl|]. split; [intros; now apply same_sym|]. split; [intros; eapply same_trans; eauto|].
  intros x y nx ny S. destruct (wf_pre l W) as [P A]. eapply alike_mono; [exact (eqv_same _ _ P A)|]. apply A. split; auto.
Qed.
Lemma unify_loops f s u v s' : named h -> wf h (tab s) -> unify h f s u v = Ok s' -> Loops h (tab s) (same false h (tab s)) -> Loops h (tab s') (same false h (tab s')).
Proof.
  intros Nm W H L. destruct (unify_same _ _ _ _ _ W H) as (_ & Mo & W'). destruct (wf_pre _ W) as [P A].
  destruct (good_unify h HS HU HA HP f _ _ _ _ _ P H) as (V' & (((P' & I & M) & N) & K) & E).
  apply K; auto; [now apply same_final| |].
  - apply eqv_same; auto. intros x y Hxy. destruct (N x y Hxy) as [H0|]; auto. eapply alike_mono; [exact M|]. auto.
  - intros x e a Ex Ra. destruct (L x e a Ex Ra) as [L1 L2]. split; auto.
Qed.
Lemma unify_all_loops f : named h -> forall cs s s', wf h (tab s) -> unify_all h f s cs = Ok s' -> Loops h (tab s) (same false h (tab s)) -> Loops h (tab s') (same false h (tab s')).
Proof.
  intros Nm. induction cs as [|[u v] cs IH]; intros s s' W H L; cbn [unify_all] in H; [injection H as <-; auto|].
  binv H. destruct (unify_same _ _ _ _ _ W E) as (_ & _ & W1). exact (IH _ _ W1 H (unify_loops _ _ _ _ _ Nm W E L)).
Qed.
Lemma init_loops : Loops h (tab init) (same false h (tab init)).
Proof.
  intros x e a Ex Ra. inversion Ra as [? E|? ? ? E]; subst; [|discriminate E]. split; [congruence|]. intros ea El.
  inversion El as [? ? E'|? ? ? ? ? E' El'|? ? E'|? ? E'|? ? ? E']; subst; rewrite Ex in E'; try discriminate. injection E' as <-. apply same_refl. intros y. exists y. now constructor.
Qed.
Theorem unify_all_same f : forall cs s s', wf h (tab s) -> unify_all h f s cs = Ok s' ->
  (forall u v, In (u, v) cs -> same false h (tab s') u v) /\ (forall x y, same false h (tab s) x y -> same false h (tab s') x y) /\ wf h (tab s').
Proof.
  induction cs as [|[u v] cs IH]; intros s s' W H; cbn [unify_all] in H.
  - injection H as <-. split; [intros u v []|auto].
  - binv H. destruct (unify_same _ _ _ _ _ W E) as (S & M & W1). destruct (IH _ _ W1 H) as (S2 & M2 & W2).
    split; [|auto]. intros p q [E1|I]; auto. injection E1 as -> ->. auto.
Qed.
(* the element type of a loop variable is unified with that of what it is bound to *)
Theorem unify_elem f s u v s' a b ea eb : wf h (tab s) -> unify h f s u v = Ok s' -> rep (tab s) u a -> rep (tab s) v b ->
  isvar (nd a) = true \/ isvar (nd b) = true -> element h a ea -> element h b eb -> same false h (tab s') ea eb.
Proof.
  intros W H Ra Rb Hv Ela Elb. destruct (wf_pre _ W) as [P A].
  destruct (unify_same _ _ _ _ _ W H) as (_ & _ & [T' _]).
  destruct (good_unify h HS HU HA HP f _ _ _ _ _ P H) as (V' & (((P' & I' & M') & N') & _) & _).
  destruct f as [|f]; [discriminate|]. cbn [unify] in H.
  binv H. destruct x as [a' s1]. binv H. destruct x as [b' s2].
  apply tf_ok in E as (Ra' & S1 & _). apply tf_ok in E0 as (Rb' & S2 & _).
  assert (a' = a) by (eapply rep_fun; eauto). assert (b' = b) by (eapply rep_fun; [apply S1; exact Rb'|auto]). subst a' b'.
  destruct (Nat.eqb_spec a b) as [->|D].
  { rewrite (element_fun h _ _ _ Ela Elb). now apply same_refl. }
  assert (W2 : exists p q ep eq, (if tyrank (nodeof h b) <? tyrank (nodeof h a) then (b, a) else (a, b)) = (p, q) /\ isvar (nd p) = true /\
     p <> q /\ rep (tab s2) p p /\ rep (tab s2) q q /\ element h p ep /\ element h q eq /\ (same false h (tab s') ep eq -> same false h (tab s') ea eb)).
  { assert (R1 : rep (tab s2) a a) by (eapply rep_self; apply S2, S1; exact Ra).
    assert (R2 : rep (tab s2) b b) by (eapply rep_self; apply S2, S1; exact Rb).
    destruct (Nat.ltb_spec (tyrank (nodeof h b)) (tyrank (nodeof h a))) as [L|L].
    - exists b, a, eb, ea. repeat (split; auto); [|intros K; now apply same_sym].
      destruct (nodeof h a), (nodeof h b); cbn in *; destruct Hv; auto; try discriminate; try (destruct seq; lia).
    - exists a, b, ea, eb. repeat (split; auto).
      destruct (nodeof h a), (nodeof h b); cbn in *; destruct Hv; auto; try discriminate; try (destruct seq; lia). }
  destruct W2 as (p & q & ep & eq & Epq & Vp & Dpq & Hp & Hq & Elp & Elq & Fin). rewrite Epq, Vp in H. apply Fin. clear Fin.
  binv H. rename x into s3.
  assert (S3 : sreps (tab s2) (tab s3)).
  { destruct (isvar (nodeof h q)); [injection E as <-; apply sreps_refl|]. binv E. destruct x as [r l].
    destruct r; [discriminate|]. injection E as <-. cbn. eapply occursin_reps; eauto. }
  binv H. binv H. apply basetype_elem with (e := ep) in E0; auto. apply basetype_elem with (e := eq) in E1; auto. subst x x0.
  binv H. destruct x as [e1 s4]. binv H. destruct x as [e2 s5].
  pose proof (sreps_trans _ _ _ (sreps_trans _ _ _ S1 S2) S3) as S123.
  pose proof (Pre_reps h _ _ _ S123 P) as P3.
  pose proof (proj1 (S3 _ _) Hp) as Hp3. pose proof (proj1 (S3 _ _) Hq) as Hq3.
  pose proof (Step0_var h _ _ p q P3 Hp3 Hq3 Dpq Vp) as T4.
  apply tf_ok in E0 as (R4 & S4 & _). apply tf_ok in E1 as (R5 & S5 & _).
  change (setlink (tab s3) p q) with (tab (link s3 p q)) in T4.
  pose proof (Step_reps h _ _ _ (sreps_trans _ _ _ S4 S5) (Step0_pre h _ _ _ _ T4)) as T5.
  destruct (good_unify h HS HU HA HP f _ _ _ _ _ (Step_pre h _ _ _ _ T5) H) as (V6 & T6 & E6).
  pose proof (Step0_trans h _ _ _ _ _ _ (Step0_trans h _ _ _ _ _ _ (proj1 (Step_reps h _ _ _ S123 P)) T4) (proj1 (Step_trans h _ _ _ _ _ _ T5 T6))) as [(P6 & I6 & M6) N6].
  apply (eqv_same _ V6); auto.
  { intros x y Hxy. destruct (N6 x y Hxy) as [H0|]; auto. eapply alike_mono; [exact M6|]. auto. }
  assert (K1 : eqv h (tab s') V6 ep e1).
  { eapply Step_eqv; [exact T6|]. eapply Step_eqv; [exact T5|]. apply eqv_rep. exact R4. }
  assert (K2 : eqv h (tab s') V6 eq e2).
  { eapply Step_eqv; [exact T6|]. apply eqv_rep. apply S5. exact R5. }
  eapply eqv_trans; [exact K1|]. eapply eqv_trans; [exact E6|]. now apply eqv_sym.
Qed.
End WithHeap.
