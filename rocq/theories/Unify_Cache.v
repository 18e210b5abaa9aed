(* The cache of equal types stays right while types are finite, so comparing types is exact throughout. *)
From Verif Require Import Base Unify_Spec Unify_Model Unify_Proofs Unify_Same Unify_Occurs Unify_Tyeq.
Open Scope nat_scope.

Section KeepsState.
Variable h : heap.
Variable Q : state -> Prop.
Hypothesis Qc : forall l t p g c, Q (St l c) -> l t = Some p -> l p = Some g -> Q (St (setlink l t g) c).
Hypothesis Qv : forall s a b, Q s -> isvar (nodeof h a) = true -> tab s a = None -> tab s b = None -> a <> b -> Q (link s a b).
Hypothesis Qe : forall f s a b r s', Q s -> tab s a = None -> tab s b = None -> a <> b -> tyeq h f s a b = Ok (r, s') -> Q (if r then link s' a b else s').
Lemma tylookup_keeps_s f : forall l t a l' c, Q (St l c) -> tylookup f l t = Ok (a, l') -> Q (St l' c).
Proof.
  induction f as [|f IH]; intros l t a l' c H E; [discriminate|]. cbn [tylookup] in E. destruct (l t) as [p|] eqn:Et.
  - destruct (l p) as [g|] eqn:Ep; eauto.
  - injection E as <- <-. auto.
Qed.
Lemma tf_keeps_s f s t a s' : Q s -> tf f s t = Ok (a, s') -> Q s'.
Proof. unfold tf. intros H E. binv E. destruct x as [x l]. injection E as <- <-. eapply tylookup_keeps_s; eauto. destruct s; auto. Qed.
Lemma anyoccurs_keeps_s rec : (forall l t r l' c, Q (St l c) -> rec l t = Ok (r, l') -> Q (St l' c)) ->
  forall ts l r l' c, Q (St l c) -> anyoccurs rec l ts = Ok (r, l') -> Q (St l' c).
Proof.
  intros Hr. induction ts as [|t ts IH]; intros l r l' c H E; cbn [anyoccurs] in E.
  - injection E as <- <-. auto.
  - binv E. destruct x as [r1 l1]. apply (Hr _ _ _ _ c) in E0; auto. destruct r1; [injection E as <- <-; auto|eauto].
Qed.
Lemma occurs_keeps_s f : forall l bs t r l' c, Q (St l c) -> occurs_rec h f l bs t = Ok (r, l') -> Q (St l' c).
Proof.
  induction f as [|f IH]; intros l bs t r l' c H E; [discriminate|]. rewrite occurs_rec_eq in E. binv E.
  destruct x as [a l1]. apply (tylookup_keeps_s _ _ _ _ _ c) in E0; auto. destruct (has bs a); [injection E as <- <-; auto|].
  eapply anyoccurs_keeps_s; [|exact E0|exact E]. cbn. eauto.
Qed.
Lemma occursin_keeps_s f l a b r l' c : Q (St l c) -> occursin h f l a b = Ok (r, l') -> Q (St l' c).
Proof.
  unfold occursin. intros H E. binv E. destruct x as [a' l1]. apply (tylookup_keeps_s _ _ _ _ _ c) in E0; auto. eapply occurs_keeps_s; eauto.
Qed.
Definition keeps_s (u : state -> tid -> tid -> res state) := forall s x y s', Q s -> u s x y = Ok s' -> Q s'.
Lemma list_keeps_s u : keeps_s u -> forall xs ys s s', Q s -> unify_list u s xs ys = Ok s' -> Q s'.
Proof.
  intros K. induction xs as [|x xs IH]; intros [|y ys] s s' H E; cbn [unify_list] in E; try (injection E as <-; auto).
  binv E. eauto.
Qed.
Lemma memb_keeps_s u : keeps_s u -> forall ms s n x r s', Q s -> unify_memb u s n x ms = Ok (r, s') -> Q s'.
Proof.
  intros K. induction ms as [|[n' y] ms IH]; intros s n x r s' H E; cbn [unify_memb] in E; [injection E as <- <-; auto|].
  destruct (n =? n')%N; [|eauto]. binv E. binv E. destruct x1 as [r1 s1]. injection E as <- <-.
  eapply IH; [|eassumption]. destruct x, y; try discriminate; [eauto|injection E0 as <-; auto].
Qed.
Lemma membs_keeps_s u : keeps_s u -> forall ms' ms s s', Q s -> unify_membs u s ms ms' = Ok s' -> Q s'.
Proof.
  intros K ms'. induction ms as [|[n x] ms IH]; intros s s' H E; cbn [unify_membs] in E; [injection E as <-; auto|].
  binv E. destruct x0 as [r s1]. apply memb_keeps_s in E0; auto. destruct r; [eauto|discriminate].
Qed.
Lemma membunify_keeps_s u f : keeps_s u -> forall s a b s', Q s -> membunify h u f s a b = Ok s' -> Q s'.
Proof.
  intros K s a b s' H E. unfold membunify in E. binv E. binv E. destruct (x =? x0); [injection E as <-; auto|].
  destruct (nodeof h x), (nodeof h x0); try (injection E as <-; auto); destruct (_ =? _); try discriminate;
    eapply membs_keeps_s; eauto.
Qed.
Lemma matchup_keeps_s u : keeps_s u -> forall s n m s', Q s -> matchup u s n m = Ok s' -> Q s'.
Proof.
  intros K s n m s' H E. destruct n, m; cbn [matchup] in E; try discriminate; try (injection E as <-; auto); eauto.
  - destruct (_ =? _)%N; [injection E as <-; auto|discriminate].
  - destruct (_ =? _)%N; [eauto|discriminate].
  - destruct (_ =? _); [eapply list_keeps_s; eauto|discriminate].
  - destruct (_ =? _); [eapply list_keeps_s; eauto|discriminate].
  - destruct (negb _); [discriminate|]. binv E. apply (K _ _ _ _) in E; auto.
    destruct (_ && _); [|injection E0 as <-; auto]. destruct (_ =? _); [eapply list_keeps_s; eauto|discriminate].
Qed.
Lemma unify_keeps_s f : keeps_s (unify h f).
Proof.
  induction f as [|f IH]; intros s u v s' H E; [discriminate|]. cbn [unify] in E.
  binv E. destruct x as [a s1]. binv E. destruct x as [b s2].
  pose proof (tf_ok _ _ _ _ _ E0) as (Ra & S1 & _). pose proof (tf_ok _ _ _ _ _ E1) as (Rb & S2 & _).
  apply tf_keeps_s in E0; auto. apply tf_keeps_s in E1; auto.
  destruct (Nat.eqb_spec a b) as [->|D]; [injection E as <-; auto|].
  assert (Ha : tab s2 a = None) by (eapply rep_last; apply S2, S1; exact Ra).
  assert (Hb : tab s2 b = None) by (eapply rep_last; apply S2; exact Rb).
  assert (W : exists p q, (if tyrank (nodeof h b) <? tyrank (nodeof h a) then (b, a) else (a, b)) = (p, q) /\
    tab s2 p = None /\ tab s2 q = None /\ p <> q).
  { destruct (_ <? _); eauto 8. }
  destruct W as (p & q & Epq & Hp & Hq & Dpq). rewrite Epq in E. destruct (isvar (nodeof h p)) eqn:Vp.
  - binv E. rename x into s3.
    assert (Q s3 /\ tab s3 p = None /\ tab s3 q = None) as (Q3 & Hp3 & Hq3).
    { destruct (isvar (nodeof h q)); [injection E2 as <-; auto|]. binv E2. destruct x as [r l]. destruct r; [discriminate|].
      injection E2 as <-. cbn. split; [eapply occursin_keeps_s; [|exact E3]; destruct s2; exact E1|]. apply occursin_reps in E3.
      split; eapply rep_last; apply E3; now constructor. }
    assert (Q4 : Q (link s3 p q)) by (apply Qv; auto). binv E. binv E. destruct x as [ea|], x0 as [eb|].
    + binv E. destruct x as [ea' s4]. binv E. destruct x as [eb' s5]. apply tf_keeps_s in E5; auto. apply tf_keeps_s in E6; auto.
      eapply IH; [|exact E]. auto.
    + binv E. destruct x as [e' s4]. injection E as <-. eapply tf_keeps_s; [|exact E5]. auto.
    + binv E. destruct x as [e' s4]. injection E as <-. eapply tf_keeps_s; [|exact E5]. auto.
    + injection E as <-. auto.
  - binv E. destruct x as [r s3]. binv E. apply Qe in E2; auto.
    eapply membunify_keeps_s; [exact IH| |exact E]. eapply matchup_keeps_s; [exact IH| |exact E3]. exact E2.
Qed.
Lemma unify_all_keeps_s f : forall cs s s', Q s -> unify_all h f s cs = Ok s' -> Q s'.
Proof.
  induction cs as [|[u v] cs IH]; intros s s' H E; cbn [unify_all] in E; [injection E as <-; auto|].
  binv E. apply unify_keeps_s in E0; auto. eauto.
Qed.
End KeepsState.


(* strict sameness is an equivalence, and links between variables or same types keep it *)
Lemma list_impl {A} (R S : A -> A -> Prop) ms ms' : (forall x y, R x y -> S x y) -> same_list R ms ms' -> same_list S ms ms'.
Proof. apply same_list_mono. Qed.
Lemma list_sym {A} (R : A -> A -> Prop) ms ms' : same_list R ms ms' -> same_list (fun x y => R y x) ms' ms.
Proof. unfold same_list. induction 1 as [|[n x] [m y] ms ms' [E r]]; constructor; auto. Qed.
Lemma list_comp {A} (R S : A -> A -> Prop) a : forall b c, same_list R a b -> same_list S b c -> same_list (fun x z => exists y, R x y /\ S y z) a c.
Proof.
  unfold same_list. induction a as [|[n x] a IH]; intros b c H K; inversion H as [|? [m y] ? b' [E r] H']; subst; inversion K as [|? [k z] ? c' [E' r'] K']; subst; constructor; eauto.
  cbn in *. split; [congruence|eauto].
Qed.
Lemma alike_strict_sym (R : tid -> tid -> Prop) n m : alike true R n m -> alike true (fun x y => R y x) m n.
Proof.
  destruct n, m; cbn [alike]; auto; try tauto.
  - intros [-> H]. auto.
  - apply Forall2_sym.
  - apply Forall2_sym.
  - intros (-> & H & K). split; auto. split; auto. now apply Forall2_sym.
  - apply list_sym.
  - intros H. apply list_sym in H. eapply list_impl; [|exact H]. intros x y. apply orel_sym.
Qed.
Lemma alike_strict_comp (R S : tid -> tid -> Prop) n m k : alike true R n m -> alike true S m k -> alike true (fun x z => exists y, R x y /\ S y z) n k.
Proof.
  destruct n, m; cbn [alike]; try tauto; destruct k; cbn [alike]; try tauto; try congruence; eauto.
  - intros [-> H] [-> K]. eauto.
  - apply Forall2_comp.
  - apply Forall2_comp.
  - intros (-> & H & K) (-> & H' & K'). split; auto. split; eauto. eapply Forall2_comp; eauto.
  - apply list_comp.
  - intros H K. pose proof (list_comp _ _ _ _ _ H K) as L. eapply list_impl; [|exact L]. intros x y (z & O & O'). eapply orel_comp; eauto.
Qed.
Section Strict.
Variable h : heap.
Notation nd := (nodeof h).
Lemma strict_sym l x y : same true h l x y -> same true h l y x.
Proof.
  intros (R & HR & r). exists (fun a b => R b a). split; auto. intros a b r'. destruct (HR b a r') as (c & d & Hc & Hd & E).
  exists d, c. split; auto. split; auto. destruct E as [<-|E]; auto. right. now apply alike_strict_sym.
Qed.
Lemma strict_trans l (T : forall x, exists a, rep l x a) x y z : same true h l x y -> same true h l y z -> same true h l x z.
Proof.
  intros H K. exists (fun x z => exists y, same true h l x y /\ same true h l y z). split; [|eauto].
  clear x y z H K. intros x z (y & H & K).
  destruct (same_respected _ _ _ _ _ H) as (a & b & Ha & Hb & E). destruct (same_respected _ _ _ _ _ K) as (b' & c & Hb' & Hc & E').
  rewrite (rep_fun _ _ _ _ Hb' Hb) in E'. exists a, c. split; auto. split; auto.
  destruct E as [<-|E], E' as [<-|E']; auto; right.
  - eapply alike_mono'; [|exact E']. intros u v S. exists u. split; auto. now apply srefl'.
  - eapply alike_mono'; [|exact E]. intros u v S. exists v. split; auto. now apply srefl'.
  - eapply alike_strict_comp; eauto.
Qed.
Lemma strict_rep l (T : forall x, exists a, rep l x a) x a : rep l x a -> same true h l x a.
Proof.
  intros H. exists (fun u v => u = x /\ v = a \/ u = v). split; auto. intros u v [[-> ->]|<-].
  - exists a, a. split; auto. split; auto. eapply rep_self; eauto.
  - destruct (T u) as [c Hc]. exists c, c. auto.
Qed.
Lemma strict_reps l l' x y : sreps l l' -> same true h l x y -> same true h l' x y.
Proof.
  intros Sr (R & HR & r). exists R. split; auto. intros u v r'. destruct (HR u v r') as (a & b & Ha & Hb & E).
  exists a, b. split; [now apply Sr|]. split; [now apply Sr|auto].
Qed.
Lemma strict_link l a b (T : forall x, exists c, rep l x c) : l a = None -> l b = None -> a <> b -> isvar (nd a) = true \/ same true h l a b ->
  forall x y, same true h l x y -> same true h (setlink l a b) x y.
Proof.
  intros Ea Eb D K x y S. exists (same true h l). split; auto. clear x y S. intros x y S.
  destruct (T x) as [c Rc]. destruct (T y) as [d Rd]. destruct (same_inv _ _ _ _ _ _ _ S Rc Rd) as [E|Al].
  - subst d. exists (if c =? a then b else c), (if c =? a then b else c). split; [now apply link_rep|]. split; [now apply link_rep|auto].
  - exists (if c =? a then b else c), (if d =? a then b else d). split; [now apply link_rep|]. split; [now apply link_rep|].
    destruct K as [V|Sab].
    + assert (Nv : forall R n m, alike true R n m -> isvar n = false /\ isvar m = false) by (intros R [] []; cbn; tauto).
      apply Nv in Al as N. destruct N as [N1 N2].
      destruct (Nat.eqb_spec c a); [congruence|]. destruct (Nat.eqb_spec d a); [congruence|]. auto.
    + assert (Scd : same true h l (if c =? a then b else c) (if d =? a then b else d)).
      { assert (M : forall z w, rep l z w -> same true h l (if w =? a then b else w) z).
        { intros z w Rz. destruct (Nat.eqb_spec w a) as [->|]; [|apply strict_sym; now apply strict_rep].
          apply (strict_trans l T _ a); [now apply strict_sym|]. apply strict_sym. now apply strict_rep. }
        apply (strict_trans l T _ x); [now apply M|]. apply (strict_trans l T _ y); auto. apply strict_sym. now apply M. }
      eapply same_inv; [exact Scd| |]; constructor; match goal with |- l (if ?e then _ else _) = None => destruct e end; auto; eapply rep_last; eauto.
Qed.
Variable size : tid -> nat.
Hypothesis Sp : forall x y, In y (parts (nd x)) -> size y < size x.
Definition sized (l : links) : Prop := forall x a, rep l x a -> size x = size a.
Definition total (l : links) : Prop := forall x, exists a, rep l x a.
Lemma sized_step l x y : total l -> sized l -> l x = Some y -> size x = size y.
Proof. intros T Sz E. destruct (T y) as [a Ra]. rewrite (Sz y a Ra). apply Sz. eapply rep_step; eauto. Qed.
Definition right_cache (s : state) : Prop := total (tab s) /\ (sized (tab s) -> csound h (tab s) (cache s)).
Lemma sized_link l a b : l a = None -> l b = None -> a <> b -> sized (setlink l a b) -> sized l.
Proof.
  intros Ea Eb D Sz x c R. pose proof (Sz _ _ (link_rep l a b Ea Eb D x c R)) as E. destruct (Nat.eqb_spec c a) as [->|]; auto.
  rewrite E. symmetry. pose proof (Sz _ _ (link_rep l a b Ea Eb D a a ltac:(now constructor))) as E'. now rewrite Nat.eqb_refl in E'.
Qed.
Lemma right_unify f cs s : unify_all h f init cs = Ok s -> right_cache s.
Proof.
  intros H. eapply (unify_all_keeps_s h right_cache); [| | | |exact H].
  - intros l t p g c [T C] Et Ep. pose proof (compress_reps _ _ _ _ Et Ep) as Sr. cbn in *. split; cbn.
    + intros x. destruct (T x) as [a Ra]. exists a. now apply Sr.
    + intros Sz a b Iab. eapply strict_reps; [exact Sr|]. apply C; auto. intros x d R. apply Sz. now apply Sr.
  - intros s0 a b [T C] V Ea Eb D. split; cbn.
    + intros x. now apply link_total.
    + intros Sz x y Ixy. apply strict_link; auto. exact (C (sized_link _ _ _ Ea Eb D Sz) x y Ixy).
  - intros g s0 a b r s1 [T C] Ea Eb D E.
    assert (K : sized (tab s0) -> (r = true <-> same true h (tab s0) a b) /\ csound h (tab s0) (cache s1)).
    { intros Sz. pose proof (tyeq_tab _ _ _ _ _ _ _ E) as Et. unfold tyeq in E. binv E. destruct x as [r1 [[c1 av1] bv1]]. injection E as <- <-. cbn.
      pose proof (tyeq_exact h (tab s0) T size (fun x y => sized_step _ x y T Sz) Sp g (cache s0) [] [] a b (C Sz)
        ltac:(intros ? []) ltac:(intros ? [])) as X. rewrite E0 in X. cbn in X. tauto. }
    pose proof (tyeq_tab _ _ _ _ _ _ _ E) as Et. destruct r; split; cbn; rewrite ?Et; auto.
    + intros x. now apply link_total.
    + intros Sz. pose proof (sized_link _ _ _ Ea Eb D Sz) as Sz0. destruct (K Sz0) as [K1 K2]. intros x y Ixy. apply strict_link; auto.
      right. now apply K1.
    + intros Sz. now apply K.
  - split; [|intros _ a b []]. intros x. exists x. now constructor.
Qed.
End Strict.

(* comparing ends on finite types *)
Section Ends.
Variable h : heap.
Notation nd := (nodeof h).
Variable l : links.
Variable N : nat.
Hypothesis Bd : bounded l N.
Variable size : tid -> nat.
Hypothesis Sz : sized size l.
Hypothesis Sp : forall x y, In y (parts (nd x)) -> size y < size x.
Definition ans {A} (r : res A) : Prop := exists x, r = Ok x.
Lemma ans_bind {A C} (r : res A) (k : A -> res C) : ans r -> (forall x, r = Ok x -> ans (k x)) -> ans (bind r k).
Proof. intros [x ->] H. cbn. auto. Qed.
Lemma ans_ok {A} (x : A) : ans (Ok x).
Proof. now exists x. Qed.
Lemma tysearch_ans f t : N < f -> ans (tysearch f l t).
Proof.
  intros L. destruct (Bd t) as (n & a & Ln & R). assert (n < f) by lia. clear L Ln. revert t n R H.
  induction f as [|f IH]; intros t n R H; [lia|]. cbn [tysearch]. inversion R as [? E'|m ? y ? E' R']; subst; rewrite E'; [apply ans_ok|].
  eapply IH; eauto. lia.
Qed.
Lemma tyeq_list_ans rec xs : (forall e x y, In x xs -> ans (rec e x y)) -> forall ys e, ans (tyeq_list rec e xs ys).
Proof.
  induction xs as [|x xs IH]; intros H ys e; [apply ans_ok|]. destruct ys as [|y ys]; [apply ans_ok|]. cbn [tyeq_list].
  apply ans_bind; [apply H; now left|]. intros [r e'] _. destruct r; [|apply ans_ok]. apply IH. intros. apply H. now right.
Qed.
Lemma tyeq_membs_ans rec ms : (forall e n x y, In (n, Some x) ms -> ans (rec e x y)) -> forall ms' e, ans (tyeq_membs rec e ms ms').
Proof.
  induction ms as [|[n x] ms IH]; intros H ms' e; [apply ans_ok|]. destruct ms' as [|[n' y] ms']; [apply ans_ok|]. cbn [tyeq_membs].
  apply ans_bind.
  - destruct x, y; cbn [tyeq_opt]; try apply ans_ok. eapply H. left. reflexivity.
  - intros [r e'] _. destruct (_ && _); [|apply ans_ok]. apply IH. intros. eapply H. right. eauto.
Qed.
Lemma tyeq_ans f : forall e a b, N + 1 + size a < f -> ans (tyeq_rec h f l e a b).
Proof.
  induction f as [|f IH]; intros e a b En; [lia|].
  cbn [tyeq_rec]. apply ans_bind; [apply tysearch_ans; lia|]. intros a' Ea'. apply tysearch_ok in Ea'.
  apply ans_bind; [apply tysearch_ans; lia|]. intros b' _.
  assert (Rec : forall e x y, In x (parts (nd a')) -> ans (tyeq_rec h f l e x y)).
  { intros e' x y Ix. apply IH. specialize (Sp a' x Ix). rewrite (Sz _ _ Ea') in En. lia. }
  destruct (negb (samekind _ _)); [apply ans_ok|]. destruct (negb _); [apply ans_ok|]. destruct (negb _); [apply ans_ok|]. destruct (negb _); [apply ans_ok|].
  destruct e as [[c av] bv]. destruct (cached _ _ _); [apply ans_ok|]. destruct (_ =? _); [apply ans_ok|].
  destruct (_ && _); [apply ans_ok|]. destruct (_ && _); [apply ans_ok|].
  apply ans_bind; [|intros [r [[c' av'] bv']] _; apply ans_ok].
  set (e := (c, put av a', put bv b')). clearbody e.
  destruct (nodeof h a') eqn:Ea, (nodeof h b') eqn:Eb; cbn [tyeq_node]; try apply ans_ok; try (apply Rec; cbn; now auto).
  - destruct (_ =? _)%N; [|apply ans_ok]. apply Rec. cbn. auto.
  - apply tyeq_list_ans. intros. apply Rec. auto.
  - apply tyeq_list_ans. intros. apply Rec. auto.
  - destruct (_ =? _)%N; [|apply ans_ok]. apply ans_bind.
    + apply tyeq_list_ans. intros. apply Rec. cbn. apply in_or_app. auto.
    + intros [r e'] _. destruct r; [|apply ans_ok]. apply Rec. cbn. apply in_or_app. right. now left.
  - apply tyeq_membs_ans. intros. apply Rec. cbn. eapply smembs_parts; eauto.
  - apply tyeq_membs_ans. intros. apply Rec. cbn. eapply umembs_parts; eauto.
Qed.
End Ends.
