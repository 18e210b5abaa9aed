(* Proofs about the unification model. *)
From Coq Require Import Relations.
From Verif Require Import Base Unify_Spec Unify_Model.
Open Scope nat_scope.

Ltac binv H := match type of H with bind ?r _ = Ok _ => let E := fresh "E" in destruct r eqn:E; cbn [bind] in H; try discriminate H end.

(* following links *)
Lemma rep_fun l x a b : rep l x a -> rep l x b -> a = b.
Proof.
  intros H; revert b; induction H as [x E|x y a E H IH]; intros b Hb; inversion Hb; subst; try congruence.
  apply IH. rewrite E in H0. now injection H0 as ->.
Qed.
Lemma rep_last l x a : rep l x a -> l a = None.
Proof. induction 1; auto. Qed.
Lemma rep_self l x a : rep l x a -> rep l a a.
Proof. intros H. constructor. eauto using rep_last. Qed.
Definition sreps (l l' : links) : Prop := forall x y, rep l x y <-> rep l' x y.
Lemma sreps_refl l : sreps l l. Proof. intros x y; tauto. Qed.
Lemma sreps_trans a b c : sreps a b -> sreps b c -> sreps a c.
Proof. intros H K x y. specialize (H x y). specialize (K x y). tauto. Qed.
Lemma setlink_same l x y : setlink l x y x = Some y.
Proof. unfold setlink. now rewrite Nat.eqb_refl. Qed.
Lemma setlink_other l x y z : z <> x -> setlink l x y z = l z.
Proof. unfold setlink. intros H. now rewrite (proj2 (Nat.eqb_neq _ _) H). Qed.
Lemma compress_reps l t p g : l t = Some p -> l p = Some g -> sreps l (setlink l t g).
Proof.
  intros Et Ep. assert (Ep' : setlink l t g p = Some g).
  { destruct (Nat.eq_dec p t) as [->|N]; [apply setlink_same|now rewrite setlink_other]. }
  intros x y; split; intros H.
  - induction H as [x E|x z a E H IH].
    + constructor. rewrite setlink_other; auto. congruence.
    + destruct (Nat.eq_dec x t) as [->|N].
      * assert (z = p) by congruence. subst z. inversion IH as [? E' |? z' ? E' H']; subst; [congruence|].
        eapply rep_step; [apply setlink_same|]. assert (z' = g) by congruence. subst z'. exact H'.
      * eapply rep_step; eauto. now rewrite setlink_other.
  - induction H as [x E|x z a E H IH].
    + constructor. destruct (Nat.eq_dec x t) as [->|N]; [now rewrite setlink_same in E|now rewrite setlink_other in E].
    + destruct (Nat.eq_dec x t) as [->|N].
      * rewrite setlink_same in E. injection E as <-. eapply rep_step; eauto. eapply rep_step; eauto.
      * rewrite setlink_other in E by auto. eapply rep_step; eauto.
Qed.
Lemma tylookup_ok f : forall l t a l', tylookup f l t = Ok (a, l') -> rep l t a /\ sreps l l'.
Proof.
  induction f as [|f IH]; intros l t a l' H; [discriminate|]. cbn in H.
  destruct (l t) as [p|] eqn:E.
  - destruct (l p) as [g|] eqn:Ep.
    + apply IH in H as [H1 H2]. pose proof (compress_reps _ _ _ _ E Ep) as C. split; [|eauto using sreps_trans].
      apply C. eapply rep_step; [apply setlink_same|exact H1].
    + apply IH in H as [H1 H2]. split; auto. eapply rep_step; eauto.
  - injection H as <- <-. split; [now constructor|apply sreps_refl].
Qed.
Lemma tf_ok f s t a s' : tf f s t = Ok (a, s') -> rep (tab s) t a /\ sreps (tab s) (tab s') /\ cache s' = cache s.
Proof.
  unfold tf. intros H. binv H. destruct x as [a' l]. injection H as <- <-.
  apply tylookup_ok in E as [H1 H2]. cbn. auto.
Qed.
Lemma tysearch_ok f : forall l t a, tysearch f l t = Ok a -> rep l t a.
Proof.
  induction f as [|f IH]; intros l t a H; [discriminate|]. cbn in H. destruct (l t) eqn:E.
  - eapply rep_step; eauto.
  - injection H as <-. now constructor.
Qed.
Lemma link_rep l a b : l a = None -> l b = None -> a <> b ->
  forall x c, rep l x c -> rep (setlink l a b) x (if c =? a then b else c).
Proof.
  intros Ea Eb N x c H. induction H as [x E|x y c E H IH].
  - destruct (x =? a) eqn:D.
    + apply Nat.eqb_eq in D; subst x. eapply rep_step; [apply setlink_same|]. constructor. now rewrite setlink_other by auto.
    + apply Nat.eqb_neq in D. constructor. now rewrite setlink_other.
  - eapply rep_step; [|exact IH]. rewrite setlink_other; auto. congruence.
Qed.
Lemma link_total l a b : (forall x, exists c, rep l x c) -> l a = None -> l b = None -> a <> b ->
  forall x, exists c, rep (setlink l a b) x c.
Proof. intros T Ea Eb N x. destruct (T x) as [c H]. eauto using link_rep. Qed.

Section WithHeap.
Variable h : heap.
Notation nd := (nodeof h).
Definition nv x := isvar (nd x) = false.

Lemma anyoccurs_reps rec : (forall l t r l', rec l t = Ok (r, l') -> sreps l l') ->
  forall ts l r l', anyoccurs rec l ts = Ok (r, l') -> sreps l l'.
Proof.
  intros Hr. induction ts as [|t ts IH]; intros l r l' H; cbn in H.
  - injection H as <- <-. apply sreps_refl.
  - binv H. destruct x as [r1 l1]. apply Hr in E. destruct r1.
    + now injection H as <- <-.
    + apply IH in H. eauto using sreps_trans.
Qed.
Lemma occurs_rec_eq f l bs sub : occurs_rec h (S f) l bs sub =
  (do (a, l) <- tylookup (S f) l sub; if has bs a then Ok (true, l) else
   anyoccurs (fun l t => occurs_rec h f l (put bs a) t) l (byvalue (nd a))).
Proof.
  cbn [occurs_rec]. destruct (tylookup (S f) l sub) as [[a l1]| |]; cbn [bind]; auto.
  destruct (has bs a); auto. destruct (nodeof h a); cbn [byvalue anyoccurs]; auto.
Qed.
Lemma occurs_reps f : forall l bs t r l', occurs_rec h f l bs t = Ok (r, l') -> sreps l l'.
Proof.
  induction f as [|f IH]; intros l bs t r l' H; [discriminate|]. rewrite occurs_rec_eq in H. binv H.
  destruct x as [a l1]. apply tylookup_ok in E as [_ E]. destruct (has bs a).
  - now injection H as <- <-.
  - apply anyoccurs_reps in H; eauto using sreps_trans.
Qed.
Lemma occursin_reps f l a b r l' : occursin h f l a b = Ok (r, l') -> sreps l l'.
Proof.
  unfold occursin. intros H. binv H. destruct x as [a' l1]. apply tylookup_ok in E as [_ E].
  apply occurs_reps in H. eauto using sreps_trans.
Qed.
Lemma tyeq_tab f s a b r s' : tyeq h f s a b = Ok (r, s') -> tab s' = tab s.
Proof. unfold tyeq. intros H. binv H. destruct x as [r1 e]. now injection H as <- <-. Qed.
Lemma tyeq_kind f s a b s' : rep (tab s) a a -> rep (tab s) b b -> tyeq h f s a b = Ok (true, s') -> samekind (nd a) (nd b) = true.
Proof.
  unfold tyeq. intros Ha Hb H. destruct f as [|f]; [discriminate|]. binv H. destruct x as [r1 e]. injection H as -> <-.
  cbn [tyeq_rec] in E. binv E. binv E. apply tysearch_ok in E0. apply tysearch_ok in E1.
  rewrite <- (rep_fun _ _ _ _ Ha E0), <- (rep_fun _ _ _ _ Hb E1) in E.
  destruct (samekind (nodeof h a) (nodeof h b)); auto. discriminate.
Qed.

(* justified equalities: V is a set of pairs of non-variables that have been matched up *)
Definition cl (V : relation tid) := clos_refl_sym_trans tid V.
Definition eqv (l : links) (V : relation tid) (x y : tid) : Prop :=
  exists a b, rep l x a /\ rep l y b /\ (a = b \/ (nv a /\ nv b /\ cl V a b)).
Definition Pre (l : links) (V : relation tid) : Prop :=
  (forall x, exists a, rep l x a) /\ (forall x a, nv x -> rep l x a -> nv a /\ cl V x a) /\ (forall x y, V x y -> nv x /\ nv y).
Definition incl' (V V' : relation tid) := forall x y, V x y -> V' x y.
Definition Grow l V l' V' := Pre l' V' /\ incl' V V' /\ (forall x y, eqv l V x y -> eqv l' V' x y).
Definition Step0 l V l' V' :=
  Grow l V l' V' /\ (forall x y, V' x y -> V x y \/ alike false (eqv l' V') (nd x) (nd y)).
(* element types of loops: what a loop variable is bound to has its element type, in a final equality Q *)
Definition named := forall x n us t, nd x = Nname n us t -> nv t.
Definition Final (Q : relation tid) : Prop :=
  (forall x, Q x x) /\ (forall x y, Q x y -> Q y x) /\ (forall x y z, Q x y -> Q y z -> Q x z) /\
  (forall x y, nv x -> nv y -> Q x y -> alike false Q (nd x) (nd y)).
Definition Loops (l : links) (Q : relation tid) : Prop :=
  forall x e a, nd x = Nvar (Some e) -> rep l x a -> nd a <> Nvar None /\ forall ea, element h a ea -> Q e ea.
Definition Keeps l l' V' := named -> forall Q, Final Q -> (forall x y, eqv l' V' x y -> Q x y) -> Loops l Q -> Loops l' Q.
Definition Step l V l' V' := Step0 l V l' V' /\ Keeps l l' V'.
Lemma final_elem Q a e : named -> Final Q -> element h a e -> nv a -> forall b, nv b -> Q a b -> exists e', element h b e' /\ Q e e'.
Proof.
  intros N (F1 & F2 & F3 & F4). induction 1 as [x e E|x n us t e E El IH|x e E|x e E|x z e E]; intros na b nb K.
  - unfold nv in na. rewrite E in na. discriminate.
  - pose proof (F4 x b na nb K) as A. rewrite E in A. destruct (nodeof h b) eqn:Eb; try destruct A. destruct H0 as [_ Ht].
    destruct (IH ltac:(eapply N; eauto) t0 ltac:(eapply N; eauto) Ht) as (e' & El' & Q'). exists e'. split; auto. eapply el_name; eauto.
  - pose proof (F4 x b na nb K) as A. rewrite E in A. destruct (nodeof h b) eqn:Eb; try destruct A. exists t. split; [now apply el_ptr|auto].
  - pose proof (F4 x b na nb K) as A. rewrite E in A. destruct (nodeof h b) eqn:Eb; try destruct A. exists t. split; [now apply el_slice|auto].
  - pose proof (F4 x b na nb K) as A. rewrite E in A. destruct (nodeof h b) eqn:Eb; try destruct A. exists t. split; [eapply el_array; eauto|auto].
Qed.
Lemma element_fun t e e' : element h t e -> element h t e' -> e = e'.
Proof.
  intros El. revert e'. induction El as [? ? E|? ? ? ? ? E El IH|? ? E|? ? E|? ? ? E]; intros e' K;
    inversion K as [? ? E'|? ? ? ? ? E' El'|? ? E'|? ? E'|? ? ? E']; subst; try congruence.
  rewrite E in E'. injection E' as -> -> ->. auto.
Qed.
Lemma basetype_elem f : forall t o e, basetype h f t = Ok o -> element h t e -> o = Some e.
Proof.
  induction f as [|f IH]; intros t o e H El; [discriminate|]. cbn [basetype] in H.
  inversion El as [? ? E|? ? ? ? ? E El'|? ? E|? ? E|? ? ? E]; subst; rewrite E in H; try (injection H as <-; auto). eauto.
Qed.
Lemma Loops_reps l l' Q : sreps l l' -> Loops l Q -> Loops l' Q.
Proof. intros S L x e a Ex Ra. apply (L x e a Ex). now apply S. Qed.
(* binding p to q keeps loops if p's element type is that of q *)
Lemma Loops_link l p q (Q : relation tid) : (forall x, exists a, rep l x a) -> l p = None -> l q = None -> p <> q -> (forall x y z, Q x y -> Q y z -> Q x z) ->
  (nd p <> Nvar None -> nd q <> Nvar None) -> (forall eq, element h q eq -> nd p <> Nvar None -> exists ep, element h p ep /\ Q ep eq) -> Loops l Q -> Loops (setlink l p q) Q.
Proof.
  intros T Lp Lq D Tr Vv El L x e a Ex Ra. destruct (T x) as [c Hc]. pose proof (link_rep l p q Lp Lq D x c Hc) as R1. rewrite (rep_fun _ _ _ _ Ra R1).
  destruct (L x e c Ex Hc) as [Nc Lc]. destruct (Nat.eqb_spec c p) as [->|]; auto. split; auto. intros eq Eq. destruct (El eq Eq Nc) as (ep & Ep & Qp). eauto.
Qed.
Lemma cl_mono V V' : incl' V V' -> forall x y, cl V x y -> cl V' x y.
Proof. intros H x y C. induction C; [apply rst_step; auto|apply rst_refl|apply rst_sym; auto|eapply rst_trans; eauto]. Qed.
Lemma eqv_refl l V x : Pre l V -> eqv l V x x.
Proof. intros [T _]. destruct (T x) as [a H]. exists a, a. auto. Qed.
Lemma eqv_sym l V x y : eqv l V x y -> eqv l V y x.
Proof.
  intros (a & b & Ha & Hb & [E|(n1 & n2 & C)]); exists b, a; split; auto; split; auto.
  right. split; auto. split; auto. now apply rst_sym.
Qed.
Lemma eqv_trans l V x y z : eqv l V x y -> eqv l V y z -> eqv l V x z.
Proof.
  intros (a & b & Ha & Hb & H1) (b' & c & Hb' & Hc & H2). rewrite (rep_fun _ _ _ _ Hb' Hb) in H2.
  exists a, c. split; auto. split; auto.
  destruct H1 as [->|(n1 & n2 & C1)]; destruct H2 as [<-|(n3 & n4 & C2)]; auto.
  right. split; auto. split; auto. eapply rst_trans; eauto.
Qed.
Lemma eqv_rep l V x a : rep l x a -> eqv l V x a.
Proof. intros H. exists a, a. split; auto. split; auto. eapply rep_self; eauto. Qed.
Lemma eqv_cl l V x y : Pre l V -> nv x -> nv y -> cl V x y -> eqv l V x y.
Proof.
  intros (T & P & _) nx ny C. destruct (T x) as [a Ha], (T y) as [b Hb].
  destruct (P _ _ nx Ha) as [na Ca], (P _ _ ny Hb) as [nb Cb].
  exists a, b. split; auto. split; auto. right. split; auto. split; auto.
  eapply rst_trans; [apply rst_sym; exact Ca|]. eapply rst_trans; [exact C|exact Cb].
Qed.
Lemma Forall2_mono {A B} (R R' : A -> B -> Prop) xs ys : (forall x y, R x y -> R' x y) -> Forall2 R xs ys -> Forall2 R' xs ys.
Proof. intros H. induction 1; constructor; auto. Qed.
Lemma covers_mono {A} (R R' : A -> A -> Prop) ms ms' : (forall x y, R x y -> R' x y) -> covers R ms ms' -> covers R' ms ms'.
Proof. intros H C n t I. destruct (C n t I) as (t' & I' & r). eauto. Qed.
Lemma members_mono {A} (R R' : A -> A -> Prop) ms ms' : (forall x y, R x y -> R' x y) -> same_members R ms ms' -> same_members R' ms ms'.
Proof. intros H (L & C1 & C2). split; auto. split; eapply covers_mono; [|exact C1| |exact C2]; cbn; auto. Qed.
Lemma orel_mono {A} (R R' : A -> A -> Prop) : (forall x y, R x y -> R' x y) -> forall x y, orel R x y -> orel R' x y.
Proof. intros H [x|] [y|]; cbn; auto. Qed.
Lemma alike_mono (R R' : tid -> tid -> Prop) n m : (forall x y, R x y -> R' x y) -> alike false R n m -> alike false R' n m.
Proof.
  intros H. destruct n, m; cbn [alike]; auto; try (apply Forall2_mono; auto).
  - intros []; auto.
  - intros (? & ? & ?). repeat split; auto. eapply Forall2_mono; eauto.
  - now apply members_mono.
  - apply members_mono. now apply orel_mono.
Qed.
Lemma Grow_refl l V : Pre l V -> Grow l V l V.
Proof. intros P. split; auto. split; auto. intros x y; auto. Qed.
Lemma Grow_trans l V l1 V1 l2 V2 : Grow l V l1 V1 -> Grow l1 V1 l2 V2 -> Grow l V l2 V2.
Proof. intros (P1 & I1 & M1) (P2 & I2 & M2). split; auto. split; auto. intros x y H. apply I2, I1, H. Qed.
Lemma Step_refl l V : Pre l V -> Step l V l V.
Proof. intros P. split; [split; [now apply Grow_refl|auto]|]. intros N Q F I L. auto. Qed.
Lemma Step0_trans l V l1 V1 l2 V2 : Step0 l V l1 V1 -> Step0 l1 V1 l2 V2 -> Step0 l V l2 V2.
Proof.
  intros (G1 & N1) (G2 & N2). split; [eapply Grow_trans; eauto|]. intros x y H. destruct (N2 x y H) as [H1|A]; auto.
  destruct (N1 x y H1) as [H0|A]; auto. right. eapply alike_mono; [|exact A]. apply G2.
Qed.
Lemma Step_trans l V l1 V1 l2 V2 : Step l V l1 V1 -> Step l1 V1 l2 V2 -> Step l V l2 V2.
Proof.
  intros (S1 & K1) (S2 & K2). split; [eapply Step0_trans; eauto|]. intros N Q F I L. apply K2; auto. apply K1; auto.
  intros x y H. apply I. apply S2. auto.
Qed.
Lemma Pre_reps l l' V : sreps l l' -> Pre l V -> Pre l' V.
Proof.
  intros S (T & P & N). split; [|split; auto].
  - intros x. destruct (T x) as [a H]. exists a. now apply S.
  - intros x a n H. apply P; auto. now apply S.
Qed.
Lemma eqv_reps l l' V x y : sreps l l' -> eqv l V x y -> eqv l' V x y.
Proof. intros S (a & b & Ha & Hb & H). exists a, b. split; [now apply S|]. split; [now apply S|auto]. Qed.
Lemma Step_reps l l' V : sreps l l' -> Pre l V -> Step l V l' V.
Proof.
  intros S P. split; [split; [|auto]|intros _ Q _ _; now apply Loops_reps]. split; [eapply Pre_reps; eauto|]. split; [intros x y; auto|]. intros x y. now apply eqv_reps.
Qed.
(* binding a variable *)
Lemma Step0_var l V a b : Pre l V -> rep l a a -> rep l b b -> a <> b -> isvar (nd a) = true -> Step0 l V (setlink l a b) V.
Proof.
  intros (T & P & N) Ha Hb D va. pose proof (rep_last _ _ _ Ha) as La. pose proof (rep_last _ _ _ Hb) as Lb.
  assert (X : forall c, nv c -> (c =? a) = false).
  { intros c nc. apply Nat.eqb_neq. intros ->. unfold nv in nc. congruence. }
  split; [|auto]. split; [split; [|split; auto]|split; [intros x y; auto|]].
  - now apply link_total.
  - intros x c nx H. destruct (T x) as [c0 H0]. destruct (P _ _ nx H0) as [n0 C0].
    pose proof (link_rep l a b La Lb D x c0 H0) as H1. rewrite X in H1 by auto.
    rewrite <- (rep_fun _ _ _ _ H1 H). auto.
  - intros x y (c & d & Hc & Hd & E). apply (link_rep l a b La Lb D) in Hc. apply (link_rep l a b La Lb D) in Hd.
    eexists _, _. split; [exact Hc|]. split; [exact Hd|]. destruct E as [->|(n1 & n2 & C)]; auto.
    rewrite !X by auto. auto.
Qed.
(* recording, and possibly linking, a pair of non-variables *)
Definition adds (V : relation tid) a b : relation tid := fun x y => V x y \/ (x = a /\ y = b).
Lemma Grow_pair l V a b (lk : bool) : Pre l V -> rep l a a -> rep l b b -> a <> b -> nv a -> nv b ->
  Grow l V (if lk then setlink l a b else l) (adds V a b).
Proof.
  intros (T & P & N) Ha Hb D na nb. pose proof (rep_last _ _ _ Ha) as La. pose proof (rep_last _ _ _ Hb) as Lb.
  assert (I : incl' V (adds V a b)) by (intros x y; left; auto).
  assert (K : cl (adds V a b) a b) by (apply rst_step; right; auto).
  split; [|split; auto].
  - split; [|split].
    + destruct lk; auto. now apply link_total.
    + intros x c nx H. destruct (T x) as [c0 H0]. destruct (P _ _ nx H0) as [n0 C0]. apply (cl_mono _ _ I) in C0.
      destruct lk.
      * pose proof (link_rep l a b La Lb D x c0 H0) as H1. rewrite <- (rep_fun _ _ _ _ H1 H).
        destruct (Nat.eqb_spec c0 a) as [->|]; auto. split; auto. eapply rst_trans; eauto.
      * rewrite <- (rep_fun _ _ _ _ H0 H). auto.
    + intros x y [H|[-> ->]]; auto.
  - intros x y (c & d & Hc & Hd & E). destruct lk.
    + apply (link_rep l a b La Lb D) in Hc. apply (link_rep l a b La Lb D) in Hd.
      eexists _, _. split; [exact Hc|]. split; [exact Hd|]. destruct E as [->|(n1 & n2 & C)]; auto.
      apply (cl_mono _ _ I) in C. destruct (Nat.eqb_spec c a) as [->|], (Nat.eqb_spec d a) as [->|]; auto.
      * right. split; auto. split; auto. eapply rst_trans; [apply rst_sym; exact K|exact C].
      * right. split; auto. split; auto. eapply rst_trans; eauto.
    + exists c, d. split; auto. split; auto. destruct E as [->|(n1 & n2 & C)]; auto. right. split; auto. split; auto.
      eapply cl_mono; eauto.
Qed.

(* what the proof needs of the heap: see heap_ok in Unify_Props *)
Definition distinct_members := forall x ms, (nd x = Nstruct ms -> NoDup (map fst ms)).
Definition distinct_members' := forall x ms, (nd x = Nunion ms -> NoDup (map fst ms)).
Definition one_arity := forall x y n us t us' t', nd x = Nname n us t -> nd y = Nname n us' t' -> length us = length us'.
Definition one_param := forall x y n n', nd x = Nparam n -> nd y = Nparam n' -> n = n'.
Hypothesis HS : distinct_members.
Hypothesis HU : distinct_members'.
Hypothesis HA : one_arity.
Hypothesis HP : one_param.

Definition Good (u : state -> tid -> tid -> res state) : Prop :=
  forall s V x y s', Pre (tab s) V -> u s x y = Ok s' -> exists V', Step (tab s) V (tab s') V' /\ eqv (tab s') V' x y.
Lemma Step_pre l V l' V' : Step l V l' V' -> Pre l' V'. Proof. intros [[[P _] _] _]; auto. Qed.
Lemma Step_eqv l V l' V' x y : Step l V l' V' -> eqv l V x y -> eqv l' V' x y. Proof. intros [[(_ & _ & M) _] _]; auto. Qed.
Lemma Step0_pre l V l' V' : Step0 l V l' V' -> Pre l' V'. Proof. intros [[P _] _]; auto. Qed.
Lemma Step0_eqv l V l' V' x y : Step0 l V l' V' -> eqv l V x y -> eqv l' V' x y. Proof. intros [(_ & _ & M) _]; auto. Qed.
Lemma good_list u : Good u -> forall xs ys s V s', Pre (tab s) V -> length xs = length ys -> unify_list u s xs ys = Ok s' ->
  exists V', Step (tab s) V (tab s') V' /\ Forall2 (eqv (tab s') V') xs ys.
Proof.
  intros G. induction xs as [|x xs IH]; intros [|y ys] s V s' P L H; cbn in L, H; try discriminate.
  - injection H as <-. exists V. split; [now apply Step_refl|constructor].
  - binv H. destruct (G _ _ _ _ _ P E) as (V1 & S1 & E1).
    destruct (IH ys x0 V1 s' (Step_pre _ _ _ _ S1) ltac:(lia) H) as (V2 & S2 & E2).
    exists V2. split; [eapply Step_trans; eauto|]. constructor; auto. eapply Step_eqv; eauto.
Qed.
Lemma good_memb u : Good u -> forall ms s V n x r s', Pre (tab s) V -> unify_memb u s n x ms = Ok (r, s') ->
  exists V', Step (tab s) V (tab s') V' /\ (forall y, In (n, y) ms -> orel (eqv (tab s') V') x y) /\ (r = true -> exists y, In (n, y) ms).
Proof.
  intros G. induction ms as [|[n' y] ms IH]; intros s V n x r s' P H; cbn [unify_memb] in H.
  - injection H as <- <-. exists V. split; [now apply Step_refl|]. split; [intros y []|discriminate].
  - destruct (N.eqb_spec n n') as [<-|N].
    + binv H. binv H. destruct x1 as [r1 s2]. injection H as <- <-.
      assert (exists V1, Step (tab s) V (tab x0) V1 /\ orel (eqv (tab x0) V1) x y) as (V1 & S1 & O1).
      { destruct x as [x|], y as [y|]; try discriminate E.
        - apply (G _ _ _ _ _ P E).
        - injection E as <-. exists V. split; [now apply Step_refl|exact I]. }
      destruct (IH _ V1 _ _ _ _ (Step_pre _ _ _ _ S1) E0) as (V2 & S2 & A2 & _).
      exists V2. split; [eapply Step_trans; eauto|]. split; [|intros _; exists y; now left].
      intros z [E1|I]; auto. injection E1 as ->. eapply orel_mono; [|exact O1]. intros p q. eapply Step_eqv; eauto.
    + destruct (IH _ V _ _ _ _ P H) as (V1 & S1 & A1 & F1). exists V1. split; auto. split.
      * intros z [E1|I]; auto. injection E1 as -> _. congruence.
      * intros r1. destruct (F1 r1) as [z I]. exists z. now right.
Qed.
Lemma good_membs u : Good u -> forall ms' ms s V s', Pre (tab s) V -> unify_membs u s ms ms' = Ok s' ->
  exists V', Step (tab s) V (tab s') V' /\ (forall n x, In (n, x) ms -> (exists y, In (n, y) ms') /\ forall y, In (n, y) ms' -> orel (eqv (tab s') V') x y).
Proof.
  intros G ms'. induction ms as [|[n x] ms IH]; intros s V s' P H; cbn [unify_membs] in H.
  - injection H as <-. exists V. split; [now apply Step_refl|]. intros n x [].
  - binv H. destruct x0 as [r s1]. destruct (good_memb u G _ _ _ _ _ _ _ P E) as (V1 & S1 & A1 & F1).
    destruct r; [|discriminate]. destruct (IH _ V1 _ (Step_pre _ _ _ _ S1) H) as (V2 & S2 & A2).
    exists V2. split; [eapply Step_trans; eauto|]. intros m z [E1|I].
    + injection E1 as -> ->. split; auto. intros y I. eapply orel_mono; [|apply A1, I]. intros p q. eapply Step_eqv; eauto.
    + now apply A2.
Qed.
(* equally many members with distinct names: covering one way is covering both ways *)
Lemma covers_back {A} (R : A -> A -> Prop) ms ms' : NoDup (map fst ms) -> length ms = length ms' ->
  (forall n x, In (n, x) ms -> (exists y, In (n, y) ms') /\ forall y, In (n, y) ms' -> R x y) -> same_members R ms ms'.
Proof.
  intros D L H. split; auto. split.
  - intros n x I. destruct (H n x I) as ((y & Iy) & F). eauto.
  - assert (incl (map fst ms') (map fst ms)) as Back.
    { apply NoDup_length_incl; auto.
      - rewrite !map_length. lia.
      - intros n I. apply in_map_iff in I as ((n' & x) & <- & I). destruct (H n' x I) as ((y & Iy) & _).
        apply in_map_iff. exists (n', y). auto. }
    intros n y I. assert (In n (map fst ms)) as K by (apply Back, in_map_iff; exists (n, y); auto).
    apply in_map_iff in K as ((n' & x) & <- & Ix). exists x. split; auto. now apply (H n' x Ix).
Qed.
Lemma smembs_in n x ms : In (n, x) (smembs ms) -> exists t, x = Some t /\ In (n, t) ms.
Proof. unfold smembs. intros I. apply in_map_iff in I as ((n' & t) & E & I). injection E as <- <-. eauto. Qed.
Lemma in_smembs n t ms : In (n, t) ms -> In (n, Some t) (smembs ms).
Proof. intros I. apply in_map_iff. exists (n, t). auto. Qed.

Definition isrec (n : node) : bool := match n with Nstruct _ | Nunion _ => true | _ => false end.
Lemma good_matchup u : Good u -> forall s V x y s', Pre (tab s) V -> matchup u s (nd x) (nd y) = Ok s' ->
  exists V', Step (tab s) V (tab s') V' /\ (isrec (nd x) = false -> alike false (eqv (tab s') V') (nd x) (nd y)).
Proof.
  intros G s V x y s' P H.
  assert (Triv : s' = s -> forall Q : Prop, Q -> exists V', Step (tab s) V (tab s') V' /\ (isrec (nd x) = false -> Q)).
  { intros -> Q q. exists V. split; [now apply Step_refl|auto]. }
  unfold matchup in H. destruct (nodeof h x) eqn:Ex, (nodeof h y) eqn:Ey; try discriminate H; cbn [isrec alike].
  - destruct (N.eqb_spec k k0); [|discriminate]. injection H as <-. exists V. split; [now apply Step_refl|auto].
  - injection H as <-. exists V. split; [now apply Step_refl|]. intros _. eapply HP; eauto.
  - destruct (G _ _ _ _ _ P H) as (V1 & S1 & E1). eauto.
  - destruct (G _ _ _ _ _ P H) as (V1 & S1 & E1). eauto.
  - destruct (N.eqb_spec sz sz0); [|discriminate]. destruct (G _ _ _ _ _ P H) as (V1 & S1 & E1). eauto.
  - destruct (Nat.eqb_spec (length ts) (length ts0)) as [L|]; [|discriminate].
    destruct (good_list u G _ _ _ _ _ P L H) as (V1 & S1 & E1). eauto.
  - destruct (Nat.eqb_spec (length ts) (length ts0)) as [L|]; [|discriminate].
    destruct (good_list u G _ _ _ _ _ P L H) as (V1 & S1 & E1). eauto.
  - destruct (N.eqb_spec n n0) as [<-|]; cbn [negb] in H; [|discriminate]. binv H.
    pose proof (HA _ _ _ _ _ _ _ Ex Ey) as L.
    assert (exists V1, Step (tab s) V (tab x0) V1 /\ Forall2 (eqv (tab x0) V1) args args0) as (V1 & S1 & F1).
    { rewrite <- L in E. destruct (0 <? length args) eqn:Z; cbn [andb] in E.
      - rewrite Nat.eqb_refl in E. exact (good_list u G _ _ _ _ _ P L E).
      - apply Nat.ltb_ge in Z. destruct args, args0; try (cbn in *; lia). injection E as <-. exists V.
        split; [now apply Step_refl|constructor]. }
    destruct (G _ _ _ _ _ (Step_pre _ _ _ _ S1) H) as (V2 & S2 & E2).
    exists V2. split; [eapply Step_trans; eauto|]. intros _. split; auto. split; auto.
    eapply Forall2_mono; [|exact F1]. intros p q. eapply Step_eqv; eauto.
  - injection H as <-. exists V. split; [now apply Step_refl|discriminate].
  - injection H as <-. exists V. split; [now apply Step_refl|discriminate].
Qed.
Lemma good_membunify u f : Good u -> forall s V a b s', Pre (tab s) V -> a <> b -> membunify h u f s a b = Ok s' ->
  exists V', Step (tab s) V (tab s') V' /\
    (isrec (nd a) = true -> samekind (nd a) (nd b) = true -> alike false (eqv (tab s') V') (nd a) (nd b)).
Proof.
  intros G s V a b s' P D H. unfold membunify in H. binv H. binv H. rename x into u0, x0 into v0.
  assert (Base : forall t t', isrec (nd t) = true -> tybase h f t = Ok t' -> t' = t).
  { intros t t' r B. destruct f; [discriminate|]. cbn [tybase] in B. destruct (nodeof h t); try discriminate r; now injection B as <-. }
  assert (Recs : isrec (nd a) = true -> samekind (nd a) (nd b) = true -> u0 = a /\ v0 = b).
  { intros r k. split; apply Base; auto. destruct (nodeof h a), (nodeof h b); try discriminate r; try discriminate k; auto. }
  destruct (Nat.eqb_spec u0 v0) as [->|Duv].
  { injection H as <-. exists V. split; [now apply Step_refl|]. intros r k. destruct (Recs r k). congruence. }
  assert (St' : exists V', Step (tab s) V (tab s') V' /\
      (isrec (nd u0) = true -> samekind (nd u0) (nd v0) = true -> alike false (eqv (tab s') V') (nd u0) (nd v0))).
  { destruct (nodeof h u0) eqn:Eu, (nodeof h v0) eqn:Ev; cbn [isrec samekind alike];
      try (injection H as <-; exists V; split; [now apply Step_refl|discriminate]).
    - destruct (Nat.eqb_spec (length ms) (length ms0)) as [L|]; [|discriminate].
      destruct (good_membs u G _ _ _ _ _ P H) as (V1 & S1 & A1). exists V1. split; auto. intros _ _.
      apply covers_back; auto; [now apply (HS u0)|]. intros n x I. destruct (A1 n (Some x) (in_smembs _ _ _ I)) as ((y & Iy) & F).
      split.
      + apply smembs_in in Iy as (t & -> & It). eauto.
      + intros t It. apply (F (Some t)). now apply in_smembs.
    - destruct (Nat.eqb_spec (length ms) (length ms0)) as [L|]; [|discriminate].
      destruct (good_membs u G _ _ _ _ _ P H) as (V1 & S1 & A1). exists V1. split; auto. intros _ _.
      apply covers_back; auto. now apply (HU u0). }
  destruct St' as (V1 & S1 & A1). exists V1. split; auto. intros r k. destruct (Recs r k) as [-> ->]. auto.
Qed.
Lemma samekind_nv n m : samekind n m = true -> isvar n = false -> isvar m = false.
Proof. destruct n, m; cbn; congruence. Qed.
Lemma alike_kind R n m : alike false R n m -> samekind n m = true.
Proof. destruct n, m; cbn; auto; try tauto. intros ->. apply N.eqb_refl. Qed.
Lemma matchup_kind u s n m s' : isvar n = false -> matchup u s n m = Ok s' -> samekind n m = true.
Proof.
  intros Hn H. destruct n, m; cbn in *; auto; try discriminate. destruct (N.eqb k k0); congruence.
Qed.

Lemma good_pair s V s1 lk a b f u s2 s' : Good u -> Pre (tab s) V -> rep (tab s) a a -> rep (tab s) b b -> a <> b -> nv a -> nv b ->
  tab s1 = (if lk : bool then setlink (tab s) a b else tab s) ->
  matchup u s1 (nd a) (nd b) = Ok s2 -> membunify h u f s2 a b = Ok s' ->
  exists V', Step (tab s) V (tab s') V' /\ eqv (tab s') V' a b.
Proof.
  intros G P Ha Hb D na nb T1 H2 H3.
  pose proof (Grow_pair _ _ a b lk P Ha Hb D na nb) as G1. rewrite <- T1 in G1.
  pose proof (matchup_kind _ _ _ _ _ na H2) as K.
  destruct (good_matchup u G _ _ _ _ _ (proj1 G1) H2) as (V2 & S2 & A2).
  destruct (good_membunify u f G _ _ _ _ _ (Step_pre _ _ _ _ S2) D H3) as (V3 & S3 & A3).
  pose proof (Step_trans _ _ _ _ _ _ S2 S3) as [[G23 N23] K23].
  exists V3. assert (al : alike false (eqv (tab s') V3) (nd a) (nd b)).
  { destruct (isrec (nd a)) eqn:R; [now apply A3|]. eapply alike_mono; [|apply A2; reflexivity]. apply S3. }
  assert (Eab : eqv (tab s') V3 a b) by (apply eqv_cl; auto; [apply G23|apply rst_step; apply G23; right; auto]).
  split; auto. split; [split; [eapply Grow_trans; eauto|]; intros x y Hxy; destruct (N23 x y Hxy) as [[Hv|[-> ->]]|]; auto|].
  intros Nm Q F I L. apply K23; auto. rewrite T1. destruct lk; auto.
  apply Loops_link; auto; [apply P|now apply rep_last in Ha|now apply rep_last in Hb|apply F|unfold nv in nb; intros _ E; now rewrite E in nb|].
  intros eq Eq _. destruct (final_elem Q b eq Nm F Eq nb a na) as (ep & Ep & Qp); [apply I, eqv_sym, Eab|]. exists ep. split; auto. now apply F.
Qed.

Theorem good_unify f : Good (unify h f).
Proof.
  induction f as [|f IH]; intros s V u v s' P H; [discriminate|]. cbn [unify] in H.
  binv H. destruct x as [a s1]. binv H. destruct x as [b s2].
  apply tf_ok in E as (Ra & S1 & _). apply tf_ok in E0 as (Rb & S2 & _).
  pose proof (sreps_trans _ _ _ S1 S2) as S12.
  assert (Ra2 : rep (tab s2) u a) by (apply S12; auto). assert (Rb2 : rep (tab s2) v b) by (apply S2; auto).
  assert (P2 : Pre (tab s2) V) by (eapply Pre_reps; eauto).
  pose proof (Step_reps _ _ _ S12 P) as T2.
  destruct (Nat.eqb_spec a b) as [->|D].
  { injection H as <-. exists V. split; auto. eapply eqv_trans; [apply eqv_rep; exact Ra2|]. apply eqv_sym, eqv_rep, Rb2. }
  (* after the swap *)
  enough (K : exists V', Step (tab s2) V (tab s') V' /\ eqv (tab s') V' a b).
  { destruct K as (V' & SV & EV). exists V'. split; [eapply Step_trans; eauto|].
    eapply eqv_trans; [eapply Step_eqv; [exact SV|apply eqv_rep; exact Ra2]|].
    eapply eqv_trans; [exact EV|]. apply eqv_sym. eapply Step_eqv; [exact SV|apply eqv_rep; exact Rb2]. }
  apply rep_self in Ra2. apply rep_self in Rb2. clear Ra Rb S1 S2 S12 T2 P u v s s1.
  rename s2 into s, Ra2 into Ha, Rb2 into Hb, P2 into P.
  assert (W : exists p q, (p = a /\ q = b \/ p = b /\ q = a) /\ tyrank (nd p) <= tyrank (nd q) /\
     (if tyrank (nodeof h b) <? tyrank (nodeof h a) then (b, a) else (a, b)) = (p, q)).
  { destruct (Nat.ltb_spec (tyrank (nodeof h b)) (tyrank (nodeof h a))); [exists b, a|exists a, b]; repeat split; auto; lia. }
  destruct W as (p & q & Hpq & Rk & Eq). rewrite Eq in H.
  assert (Hp : rep (tab s) p p) by (destruct Hpq as [[-> ->]|[-> ->]]; auto).
  assert (Hq : rep (tab s) q q) by (destruct Hpq as [[-> ->]|[-> ->]]; auto).
  assert (Dpq : p <> q) by (destruct Hpq as [[-> ->]|[-> ->]]; auto).
  enough (K : exists V', Step (tab s) V (tab s') V' /\ eqv (tab s') V' p q).
  { destruct K as (V' & SV & EV). exists V'. split; auto. destruct Hpq as [[-> ->]|[-> ->]]; auto. now apply eqv_sym. }
  clear Eq Hpq Ha Hb D a b. destruct (isvar (nodeof h p)) eqn:Vp.
  - binv H. rename x into s1.
    assert (S1 : sreps (tab s) (tab s1)).
    { destruct (isvar (nodeof h q)); [injection E as <-; apply sreps_refl|]. binv E. destruct x as [r l].
      destruct r; [discriminate|]. injection E as <-. cbn. eapply occursin_reps; eauto. }
    pose proof (Step_reps _ _ _ S1 P) as T1. pose proof (Step_pre _ _ _ _ T1) as P1.
    pose proof (proj1 (S1 _ _) Hp) as Hp1. pose proof (proj1 (S1 _ _) Hq) as Hq1.
    pose proof (Step0_var _ _ p q P1 Hp1 Hq1 Dpq Vp) as T2. pose proof (Step0_trans _ _ _ _ _ _ (proj1 T1) T2) as T.
    assert (EV : eqv (tab (link s1 p q)) V p q).
    { eapply eqv_rep. eapply rep_step; [apply setlink_same|]. constructor. cbn [tab link]. rewrite setlink_other by auto. now apply rep_last in Hq1. }
    binv H. binv H. change (setlink (tab s1) p q) with (tab (link s1 p q)) in T. set (s2 := link s1 p q) in *.
    assert (Kl : forall Q, Final Q -> (forall ep eq, element h p ep -> element h q eq -> Q ep eq) -> Loops (tab s) Q -> Loops (tab s2) Q).
    { intros Q F Kp L. apply (Loops_reps _ _ _ S1) in L. apply Loops_link; auto; [apply P1|now apply rep_last in Hp1|now apply rep_last in Hq1|apply F| |].
      - intros N1 N2. rewrite N2 in Rk. destruct (nodeof h p) as [[]| | | | | | | | | |]; try discriminate Vp; cbn in Rk; [lia|congruence].
      - intros eq Eq Np. destruct (nodeof h p) as [[ep|]| | | | | | | | | |] eqn:Ep; try discriminate Vp; [|congruence]. exists ep. split; [now apply el_var|]. apply Kp; auto. now apply el_var. }
    assert (Tf1 : forall e e' s3, tf (S f) s2 e = Ok (e', s3) -> Step0 (tab s) V (tab s3) V /\ eqv (tab s3) V p q /\ sreps (tab s2) (tab s3) /\ rep (tab s2) e e').
    { intros e e' s3 Ht. apply tf_ok in Ht as (R3 & S3 & _). split; [eapply Step0_trans; [exact T|]|split; [eapply eqv_reps; eauto|auto]].
      apply Step_reps; auto. eapply Step0_pre; eauto. }
    destruct x as [ea|], x0 as [eb|].
    + binv H. destruct x as [ea' s3]. binv H. destruct x as [eb' s4].
      destruct (Tf1 _ _ _ E2) as (T3 & EV3 & S3 & R3). apply tf_ok in E3 as (R4 & S4 & _).
      pose proof (Step_reps _ _ _ S4 (Step0_pre _ _ _ _ T3)) as T4.
      destruct (IH _ _ _ _ _ (Step_pre _ _ _ _ T4) H) as (V5 & S5 & E5).
      exists V5. split; [|eapply Step_eqv; [exact S5|]; eapply Step_eqv; [exact T4|auto]].
      split; [eapply Step0_trans; [exact T3|eapply Step0_trans; [apply T4|apply S5]]|].
      intros Nm Q F I L. apply S5; auto. eapply Loops_reps; [exact S4|]. eapply Loops_reps; [exact S3|]. apply Kl; auto.
      intros ep eq Ep Eq. pose proof (basetype_elem _ _ _ _ E0 Ep) as X1. pose proof (basetype_elem _ _ _ _ E1 Eq) as X2. injection X1 as ->. injection X2 as ->.
      apply I. eapply eqv_trans; [eapply Step_eqv; [exact S5|]; apply eqv_rep; apply S4, S3; exact R3|].
      eapply eqv_trans; [exact E5|]. apply eqv_sym. eapply Step_eqv; [exact S5|]. apply eqv_rep. apply S4. exact R4.
    + binv H. destruct x as [e' s3]. injection H as <-. exists V. destruct (Tf1 _ _ _ E2) as (T3 & EV3 & S3 & _). split; auto. split; auto.
      intros Nm Q F I L. eapply Loops_reps; [exact S3|]. apply Kl; auto. intros ep eq Ep Eq. pose proof (basetype_elem _ _ _ _ E1 Eq). discriminate.
    + binv H. destruct x as [e' s3]. injection H as <-. exists V. destruct (Tf1 _ _ _ E2) as (T3 & EV3 & S3 & _). split; auto. split; auto.
      intros Nm Q F I L. eapply Loops_reps; [exact S3|]. apply Kl; auto. intros ep eq Ep Eq. pose proof (basetype_elem _ _ _ _ E0 Ep). discriminate.
    + injection H as <-. exists V. split; auto. split; auto.
      intros Nm Q F I L. apply Kl; auto. intros ep eq Ep Eq. pose proof (basetype_elem _ _ _ _ E0 Ep). discriminate.
  - assert (Vq : isvar (nodeof h q) = false).
    { destruct (nodeof h p), (nodeof h q); cbn in *; try discriminate Vp; auto; destruct seq; lia. }
    binv H. destruct x as [r s1]. binv H. pose proof (tyeq_tab _ _ _ _ _ _ E) as T1.
    eapply (good_pair s V (if r then link s1 p q else s1) r); eauto.
    destruct r; cbn [tab link]; now rewrite T1.
Qed.
End WithHeap.
