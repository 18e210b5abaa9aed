(* The occurs check: it always ends, and it finds exactly the types that contain the variable or themselves. *)
From Verif Require Import Base Unify_Spec Unify_Model Unify_Proofs.
Open Scope nat_scope.

Inductive repn (l : links) : nat -> tid -> tid -> Prop :=
| rn_end x : l x = None -> repn l 0 x x
| rn_step n x y a : l x = Some y -> repn l n y a -> repn l (S n) x a.
(* no chain of links is longer than N *)
Definition bounded (l : links) (N : nat) : Prop := forall x, exists n a, n <= N /\ repn l n x a.
Lemma repn_rep l n x a : repn l n x a -> rep l x a.
Proof. induction 1; [now constructor|eapply rep_step; eauto]. Qed.
Lemma bounded_total l N : bounded l N -> forall x, exists a, rep l x a.
Proof. intros B x. destruct (B x) as (n & a & _ & H). exists a. eapply repn_rep; eauto. Qed.
Lemma bounded_mono l N M : N <= M -> bounded l N -> bounded l M.
Proof. intros L B x. destruct (B x) as (n & a & H & R). exists n, a. split; auto. lia. Qed.
Lemma compress_depth l t p g : l t = Some p -> l p = Some g ->
  forall n x a, repn l n x a -> exists m, m <= n /\ repn (setlink l t g) m x a.
Proof.
  intros Et Ep. induction n as [n IH] using lt_wf_ind. intros x a R. inversion R as [? E|n' ? y ? E R' ]; subst.
  - exists 0. split; auto. constructor. rewrite setlink_other; auto. congruence.
  - destruct (Nat.eq_dec x t) as [->|D].
    + assert (y = p) by congruence. subst y. inversion R' as [? E'|n'' ? z ? E' R'']; subst; [congruence|].
      assert (z = g) by congruence. subst z. destruct (IH n'' ltac:(lia) g a R'') as (m & Lm & Rm).
      exists (S m). split; [lia|]. eapply rn_step; [apply setlink_same|auto].
    + destruct (IH n' ltac:(lia) y a R') as (m & Lm & Rm). exists (S m). split; [lia|]. eapply rn_step; eauto.
      now rewrite setlink_other.
Qed.
Lemma compress_bounded l t p g N : l t = Some p -> l p = Some g -> bounded l N -> bounded (setlink l t g) N.
Proof.
  intros Et Ep B x. destruct (B x) as (n & a & L & R).
  destruct (compress_depth _ _ _ _ Et Ep n x a R) as (m & Lm & Rm). exists m, a. split; auto. lia.
Qed.
Lemma tylookup_ends f : forall l t n a N, repn l n t a -> n < f -> bounded l N -> exists l', tylookup f l t = Ok (a, l') /\ bounded l' N.
Proof.
  induction f as [|f IH]; intros l t n a N R L B; [lia|]. cbn [tylookup]. inversion R as [? E|n' ? y ? E R']; subst.
  - rewrite E. eauto.
  - rewrite E. inversion R' as [? E'|n'' ? z ? E' R'']; subst.
    + rewrite E'. apply (IH _ _ 0 _ N); auto. lia.
    + rewrite E'. pose proof (compress_bounded _ _ _ _ _ E E' B) as B'.
      destruct (compress_depth _ _ _ _ E E' _ _ _ R'') as (k & Lk & Rk). apply (IH _ _ k _ N); auto. lia.
Qed.
Lemma tylookup_bounded l N f t : bounded l N -> N < f -> exists a l', tylookup f l t = Ok (a, l') /\ rep l t a /\ bounded l' N.
Proof.
  intros B L. destruct (B t) as (n & a & Ln & R). destruct (tylookup_ends f l t n a N R ltac:(lia) B) as (l' & E & B').
  exists a, l'. split; auto. split; auto. eapply repn_rep; eauto.
Qed.
Lemma link_bounded l a b N : l a = None -> l b = None -> a <> b -> bounded l N -> bounded (setlink l a b) (S N).
Proof.
  intros Ea Eb D B x. destruct (B x) as (n & c & L & R).
  assert (K : exists m d, m <= S n /\ repn (setlink l a b) m x d).
  { clear L. induction R as [x E|n x y c E R IH].
    - destruct (Nat.eq_dec x a) as [->|Dx].
      + exists 1, b. split; auto. eapply rn_step; [apply setlink_same|]. constructor. now rewrite setlink_other by auto.
      + exists 0, x. split; [lia|]. constructor. now rewrite setlink_other.
    - destruct IH as (m & d & Lm & Rm). exists (S m), d. split; [lia|]. eapply rn_step; eauto.
      rewrite setlink_other; auto. congruence. }
  destruct K as (m & d & Lm & Rm). exists m, d. split; auto. lia.
Qed.

Lemma has_in bs a : has bs a = true <-> In a bs.
Proof.
  unfold has. rewrite existsb_exists. split.
  - intros (x & I & E). apply Nat.eqb_eq in E. now subst.
  - intros I. exists a. split; auto. apply Nat.eqb_refl.
Qed.
Lemma contains_reps h l l' v x : sreps l l' -> contains h l v x -> contains h l' v x.
Proof.
  intros S. induction 1 as [x R|x a y R I C IH].
  - apply ct_here. now apply S.
  - eapply ct_part; eauto. now apply S.
Qed.
Lemma sreps_sym l l' : sreps l l' -> sreps l' l.
Proof. intros S x y. specialize (S x y). tauto. Qed.

Section WithHeap.
Variable h : heap.
Notation nd := (nodeof h).
Lemma nd_out a : length h <= a -> byvalue (nd a) = [].
Proof. intros H. unfold nodeof. rewrite nth_overflow; auto. Qed.

(* the types not yet on the path *)
Definition fresh (bs : list tid) : nat := length (filter (fun x => negb (has bs x)) (seq 0 (length h))).
Lemma filter_lt {A} (p q : A -> bool) (l : list A) a : (forall x, q x = true -> p x = true) -> In a l -> p a = true -> q a = false ->
  length (filter q l) < length (filter p l).
Proof.
  intros H. induction l as [|x l IH]; intros I Pa Qa; [destruct I|].
  assert (LE : length (filter q l) <= length (filter p l)).
  { clear - H. induction l as [|y l IH]; cbn; auto. specialize (H y). destruct (q y), (p y); cbn; try lia;
    exfalso; specialize (H eq_refl); discriminate. }
  cbn. destruct I as [->|I].
  - rewrite Pa, Qa. cbn. lia.
  - specialize (IH I Pa Qa). specialize (H x). destruct (q x), (p x); cbn; try lia; exfalso; specialize (H eq_refl); discriminate.
Qed.
Lemma fresh_lt bs a : has bs a = false -> a < length h -> fresh (put bs a) < fresh bs.
Proof.
  intros H L. apply (filter_lt _ _ _ a).
  - intros x. cbn. destruct (x =? a); cbn; [discriminate|]. unfold has. auto.
  - apply in_seq. lia.
  - now rewrite H.
  - cbn. now rewrite Nat.eqb_refl.
Qed.

Lemma anyoccurs_ends rec N : (forall l t, bounded l N -> exists r l', rec l t = Ok (r, l') /\ bounded l' N) ->
  forall ts l, bounded l N -> exists r l', anyoccurs rec l ts = Ok (r, l') /\ bounded l' N.
Proof.
  intros Hr. induction ts as [|t ts IH]; intros l B; cbn [anyoccurs].
  - eauto.
  - destruct (Hr l t B) as (r & l1 & -> & B1). cbn [bind]. destruct r; eauto.
Qed.
Lemma occurs_ends N : forall f bs l t, bounded l N -> N + fresh bs + 1 < f -> exists r l', occurs_rec h f l bs t = Ok (r, l') /\ bounded l' N.
Proof.
  induction f as [|f IH]; intros bs l t B L; [lia|]. rewrite occurs_rec_eq.
  destruct (tylookup_bounded l N (S f) t B ltac:(lia)) as (a & l1 & -> & _ & B1). cbn [bind].
  destruct (has bs a) eqn:Ha; [eauto|].
  destruct (le_lt_dec (length h) a) as [O|I].
  - rewrite nd_out by auto. cbn. eauto.
  - pose proof (fresh_lt bs a Ha I). apply anyoccurs_ends; auto. intros l2 t2 B2. apply IH; auto. lia.
Qed.

Lemma anyoccurs_all rec : (forall l t r l', rec l t = Ok (r, l') -> sreps l l') -> forall ts l l', anyoccurs rec l ts = Ok (false, l') ->
  forall t, In t ts -> exists l1 l2, sreps l l1 /\ rec l1 t = Ok (false, l2).
Proof.
  intros Hr. induction ts as [|x ts IH]; intros l l' H t I; [destruct I|]. cbn [anyoccurs] in H. binv H. destruct x0 as [r l1].
  destruct r; [discriminate|]. destruct I as [->|I].
  - exists l, l1. split; auto. apply sreps_refl.
  - destruct (IH _ _ H t I) as (l2 & l3 & S & E'). exists l2, l3. split; auto. eapply sreps_trans; [eapply Hr; eauto|auto].
Qed.
Lemma occurs_finds f : forall l bs t l', occurs_rec h f l bs t = Ok (false, l') -> forall v, In v bs -> ~ contains h l v t.
Proof.
  induction f as [|f IH]; intros l bs t l' H v Iv C; [discriminate|]. rewrite occurs_rec_eq in H. binv H. destruct x as [a l1].
  apply tylookup_ok in E as [R S]. destruct (has bs a) eqn:Ha; [discriminate|].
  inversion C as [? Rv|? a' y Ra Iy Cy]; subst.
  - assert (a = v) by (eapply rep_fun; eauto). subst v. apply has_in in Iv. congruence.
  - assert (a' = a) by (eapply rep_fun; eauto). subst a'.
    destruct (anyoccurs_all _ (fun l t r l' => occurs_reps h f l (put bs a) t r l') _ _ _ H y Iy) as (l2 & l3 & S2 & E2).
    apply (IH _ _ _ _ E2 v); [now right|]. eapply contains_reps; [|exact Cy]. eapply sreps_trans; eauto.
Qed.
Lemma anyoccurs_some rec : (forall l t r l', rec l t = Ok (r, l') -> sreps l l') -> forall ts l l', anyoccurs rec l ts = Ok (true, l') ->
  exists t l1 l2, In t ts /\ sreps l l1 /\ rec l1 t = Ok (true, l2).
Proof.
  intros Hr. induction ts as [|x ts IH]; intros l l' H; [discriminate|]. cbn [anyoccurs] in H. binv H. destruct x0 as [r l1].
  destruct r.
  - exists x, l, l1. split; [now left|]. split; auto. apply sreps_refl.
  - destruct (IH _ _ H) as (t & l2 & l3 & I & S & E'). exists t, l2, l3. split; [now right|]. split; auto.
    eapply sreps_trans; [eapply Hr; eauto|auto].
Qed.
(* found: a type on the path lies within t, or some type lies within itself *)
Definition selfinside (l : links) (x : tid) : Prop := exists a y, rep l x a /\ In y (byvalue (nd a)) /\ contains h l a y.
Lemma selfinside_reps l l' x : sreps l l' -> selfinside l x -> selfinside l' x.
Proof. intros S (a & y & R & I & C). exists a, y. split; [now apply S|]. split; auto. eapply contains_reps; eauto. Qed.
Lemma occurs_real f : forall l bs t l', occurs_rec h f l bs t = Ok (true, l') ->
  (exists v, In v bs /\ contains h l v t) \/ exists x, selfinside l x.
Proof.
  induction f as [|f IH]; intros l bs t l' H; [discriminate|]. rewrite occurs_rec_eq in H. binv H. destruct x as [a l1].
  apply tylookup_ok in E as [R S]. destruct (has bs a) eqn:Ha.
  - left. exists a. split; [now apply has_in|now apply ct_here].
  - apply anyoccurs_some in H as (y & l2 & l3 & Iy & S2 & E2); [|intros ? ? ? ?; apply occurs_reps].
    assert (S' : sreps l2 l) by (apply sreps_sym; eapply sreps_trans; eauto).
    destruct (IH _ _ _ _ E2) as [(v & [<-|Iv] & C)|(x & C)].
    + right. exists a, a, y. split; [eapply rep_self; eauto|]. split; auto. eapply contains_reps; eauto.
    + left. exists v. split; auto. eapply ct_part; eauto. eapply contains_reps; eauto.
    + right. exists x. eapply selfinside_reps; eauto.
Qed.
End WithHeap.

(* any property of the table kept by compressing a path and by linking two ends is kept by unification *)
Section Keeps.
Variable h : heap.
Variable Q : links -> Prop.
Hypothesis Qc : forall l t p g, Q l -> l t = Some p -> l p = Some g -> Q (setlink l t g).
Hypothesis Ql : forall l a b, Q l -> l a = None -> l b = None -> a <> b -> Q (setlink l a b).
Lemma tylookup_keeps f : forall l t a l', Q l -> tylookup f l t = Ok (a, l') -> Q l'.
Proof.
  induction f as [|f IH]; intros l t a l' H E; [discriminate|]. cbn [tylookup] in E. destruct (l t) as [p|] eqn:Et.
  - destruct (l p) as [g|] eqn:Ep; eauto.
  - injection E as <- <-. auto.
Qed.
Lemma tf_keeps f s t a s' : Q (tab s) -> tf f s t = Ok (a, s') -> Q (tab s').
Proof. unfold tf. intros H E. binv E. destruct x as [x l]. injection E as <- <-. eapply tylookup_keeps; eauto. Qed.
Lemma anyoccurs_keeps rec : (forall l t r l', Q l -> rec l t = Ok (r, l') -> Q l') ->
  forall ts l r l', Q l -> anyoccurs rec l ts = Ok (r, l') -> Q l'.
Proof.
  intros Hr. induction ts as [|t ts IH]; intros l r l' H E; cbn [anyoccurs] in E.
  - injection E as <- <-. auto.
  - binv E. destruct x as [r1 l1]. apply Hr in E0; auto. destruct r1; [injection E as <- <-; auto|eauto].
Qed.
Lemma occurs_keeps f : forall l bs t r l', Q l -> occurs_rec h f l bs t = Ok (r, l') -> Q l'.
Proof.
  induction f as [|f IH]; intros l bs t r l' H E; [discriminate|]. rewrite occurs_rec_eq in E. binv E.
  destruct x as [a l1]. apply tylookup_keeps in E0; auto. destruct (has bs a); [injection E as <- <-; auto|].
  eapply anyoccurs_keeps; [|exact E0|exact E]. cbn. eauto.
Qed.
Lemma occursin_keeps f l a b r l' : Q l -> occursin h f l a b = Ok (r, l') -> Q l'.
Proof.
  unfold occursin. intros H E. binv E. destruct x as [a' l1]. apply tylookup_keeps in E0; auto. eapply occurs_keeps; eauto.
Qed.
Definition keeps (u : state -> tid -> tid -> res state) := forall s x y s', Q (tab s) -> u s x y = Ok s' -> Q (tab s').
Lemma list_keeps u : keeps u -> forall xs ys s s', Q (tab s) -> unify_list u s xs ys = Ok s' -> Q (tab s').
Proof.
  intros K. induction xs as [|x xs IH]; intros [|y ys] s s' H E; cbn [unify_list] in E; try (injection E as <-; auto).
  binv E. eauto.
Qed.
Lemma memb_keeps u : keeps u -> forall ms s n x r s', Q (tab s) -> unify_memb u s n x ms = Ok (r, s') -> Q (tab s').
Proof.
  intros K. induction ms as [|[n' y] ms IH]; intros s n x r s' H E; cbn [unify_memb] in E; [injection E as <- <-; auto|].
  destruct (n =? n')%N; [|eauto]. binv E. binv E. destruct x1 as [r1 s1]. injection E as <- <-.
  eapply IH; [|eassumption]. destruct x, y; try discriminate; [eauto|injection E0 as <-; auto].
Qed.
Lemma membs_keeps u : keeps u -> forall ms' ms s s', Q (tab s) -> unify_membs u s ms ms' = Ok s' -> Q (tab s').
Proof.
  intros K ms'. induction ms as [|[n x] ms IH]; intros s s' H E; cbn [unify_membs] in E; [injection E as <-; auto|].
  binv E. destruct x0 as [r s1]. apply memb_keeps in E0; auto. destruct r; [eauto|discriminate].
Qed.
Lemma membunify_keeps u f : keeps u -> forall s a b s', Q (tab s) -> membunify h u f s a b = Ok s' -> Q (tab s').
Proof.
  intros K s a b s' H E. unfold membunify in E. binv E. binv E. destruct (x =? x0); [injection E as <-; auto|].
  destruct (nodeof h x), (nodeof h x0); try (injection E as <-; auto); destruct (_ =? _); try discriminate;
    eapply membs_keeps; eauto.
Qed.
Lemma matchup_keeps u : keeps u -> forall s n m s', Q (tab s) -> matchup u s n m = Ok s' -> Q (tab s').
Proof.
  intros K s n m s' H E. destruct n, m; cbn [matchup] in E; try discriminate; try (injection E as <-; auto); eauto.
  - destruct (_ =? _)%N; [injection E as <-; auto|discriminate].
  - destruct (_ =? _)%N; [eauto|discriminate].
  - destruct (_ =? _); [eapply list_keeps; eauto|discriminate].
  - destruct (_ =? _); [eapply list_keeps; eauto|discriminate].
  - destruct (negb _); [discriminate|]. binv E. apply (K _ _ _ _) in E; auto.
    destruct (_ && _); [|injection E0 as <-; auto]. destruct (_ =? _); [eapply list_keeps; eauto|discriminate].
Qed.
Lemma unify_keeps f : keeps (unify h f).
Proof.
  induction f as [|f IH]; intros s u v s' H E; [discriminate|]. cbn [unify] in E.
  binv E. destruct x as [a s1]. binv E. destruct x as [b s2].
  pose proof (tf_ok _ _ _ _ _ E0) as (Ra & S1 & _). pose proof (tf_ok _ _ _ _ _ E1) as (Rb & S2 & _).
  apply tf_keeps in E0; auto. apply tf_keeps in E1; auto.
  destruct (Nat.eqb_spec a b) as [->|D]; [injection E as <-; auto|].
  assert (Ha : tab s2 a = None) by (eapply rep_last; apply S2, S1; exact Ra).
  assert (Hb : tab s2 b = None) by (eapply rep_last; apply S2; exact Rb).
  assert (W : exists p q, (if tyrank (nodeof h b) <? tyrank (nodeof h a) then (b, a) else (a, b)) = (p, q) /\
    tab s2 p = None /\ tab s2 q = None /\ p <> q).
  { destruct (_ <? _); eauto 8. }
  destruct W as (p & q & Epq & Hp & Hq & Dpq). rewrite Epq in E. destruct (isvar (nodeof h p)).
  - binv E. rename x into s3.
    assert (Q (tab s3) /\ tab s3 p = None /\ tab s3 q = None) as (Q3 & Hp3 & Hq3).
    { destruct (isvar (nodeof h q)); [injection E2 as <-; auto|]. binv E2. destruct x as [r l]. destruct r; [discriminate|].
      injection E2 as <-. cbn. split; [eapply occursin_keeps; eauto|]. apply occursin_reps in E3.
      split; eapply rep_last; apply E3; now constructor. }
    assert (Q4 : Q (tab (link s3 p q))) by (apply Ql; auto). binv E. binv E. destruct x as [ea|], x0 as [eb|].
    + binv E. destruct x as [ea' s4]. binv E. destruct x as [eb' s5]. apply tf_keeps in E5; auto. apply tf_keeps in E6; auto.
      eapply IH; [|exact E]. auto.
    + binv E. destruct x as [e' s4]. injection E as <-. eapply tf_keeps; [|exact E5]. auto.
    + binv E. destruct x as [e' s4]. injection E as <-. eapply tf_keeps; [|exact E5]. auto.
    + injection E as <-. auto.
  - binv E. destruct x as [r s3]. binv E. apply tyeq_tab in E2.
    eapply membunify_keeps; [exact IH| |exact E]. eapply matchup_keeps; [exact IH| |exact E3].
    destruct r; cbn [link tab]; rewrite E2; auto.
Qed.
Lemma unify_all_keeps f : forall cs s s', Q (tab s) -> unify_all h f s cs = Ok s' -> Q (tab s').
Proof.
  induction cs as [|[u v] cs IH]; intros s s' H E; cbn [unify_all] in E; [injection E as <-; auto|].
  binv E. apply unify_keeps in E0; auto. eauto.
Qed.
End Keeps.

Lemma unify_all_bounded h f cs s : unify_all h f init cs = Ok s -> exists N, bounded (tab s) N.
Proof.
  intros H. eapply (unify_all_keeps h (fun l => exists N, bounded l N)); [| | |exact H].
  - intros l t p g (N & B) Et Ep. exists N. eapply compress_bounded; eauto.
  - intros l a b (N & B) Ha Hb D. exists (S N). now apply link_bounded.
  - exists 0. intros x. exists 0, x. split; auto. now constructor.
Qed.

Section Reported.
Variable h : heap.
Notation nd := (nodeof h).
Lemma occurs_reported l N a b f : bounded l N -> rep l a a -> contains h l a b -> N + length h + 2 < f ->
  exists l', occursin h f l a b = Ok (true, l').
Proof.
  intros B Ra C L. unfold occursin.
  destruct (tylookup_bounded l N f a B ltac:(lia)) as (a' & l1 & E1 & R1 & B1).
  rewrite E1. cbn [bind]. rewrite <- (rep_fun _ _ _ _ Ra R1) in *.
  assert (F : fresh h (put [] a) <= length h).
  { unfold fresh. rewrite <- (seq_length (length h) 0) at 2. generalize (seq 0 (length h)). intros xs.
    induction xs as [|x xs IH]; auto. cbn [filter]. destruct (negb _); cbn [length]; lia. }
  destruct (occurs_ends h N f (put [] a) l1 b B1 ltac:(lia)) as (r & l2 & E2 & _). rewrite E2.
  destruct r; eauto. exfalso. apply (occurs_finds h f _ _ _ _ E2 a); [now left|].
  eapply contains_reps; [|exact C]. eapply tylookup_ok; eauto.
Qed.
Theorem occurs_err s N u v a f : bounded (tab s) N -> rep (tab s) u a -> isvar (nd a) = true -> contains h (tab s) a v -> ~ rep (tab s) v a ->
  (forall b, rep (tab s) v b -> isvar (nd b) = false) -> N + length h + 2 < f ->
  unify h f s u v = Err /\ unify h f s v u = Err.
Proof.
  intros B Ra Va C Nv Nb L. destruct f as [|f]; [lia|].
  assert (TF : forall s t, bounded (tab s) N -> exists c s', tf (S f) s t = Ok (c, s') /\ bounded (tab s') N).
  { intros s0 t B0. unfold tf. destruct (tylookup_bounded (tab s0) N (S f) t B0 ltac:(lia)) as (c & l' & E & _ & B').
    rewrite E. cbn [bind]. eexists _, _. split; eauto. }
  split; cbn [unify].
  - destruct (TF s u B) as (a' & s1 & E1 & B1). destruct (TF s1 v B1) as (b & s2 & E2 & B2). rewrite E1. cbn [bind]. rewrite E2. cbn [bind].
    apply tf_ok in E1 as (R1 & S1 & _). apply tf_ok in E2 as (R2 & S2 & _). assert (a' = a) by (eapply rep_fun; eauto). subst a'.
    assert (Rv : rep (tab s) v b) by (apply S1; auto). pose proof (Nb b Rv) as nb.
    destruct (Nat.eqb_spec a b) as [->|D]; [congruence|].
    assert (tyrank (nd b) <? tyrank (nd a) = false) as ->.
    { apply Nat.ltb_ge. destruct (nodeof h b); try discriminate nb; destruct (nodeof h a); try discriminate Va; destruct seq; cbn; lia. }
    rewrite Va, nb. pose proof (sreps_trans _ _ _ S1 S2) as S12.
    destruct (occurs_reported (tab s2) N a b (S f) B2) as (l' & E3); auto; try lia.
    + apply S12. eapply rep_self; eauto.
    + eapply contains_reps; [exact S12|]. inversion C as [? R|? c y R I C']; subst; [contradiction|].
      assert (c = b) by (eapply rep_fun; eauto). subst c. eapply ct_part; eauto. eapply rep_self; eauto.
    + rewrite E3. reflexivity.
  - destruct (TF s v B) as (b & s1 & E1 & B1). destruct (TF s1 u B1) as (a' & s2 & E2 & B2). rewrite E1. cbn [bind]. rewrite E2. cbn [bind].
    apply tf_ok in E1 as (R1 & S1 & _). apply tf_ok in E2 as (R2 & S2 & _).
    assert (a' = a) by (eapply rep_fun; [apply S1; exact R2|auto]). subst a'.
    pose proof (Nb b R1) as nb.
    destruct (Nat.eqb_spec b a) as [->|D]; [congruence|].
    assert (tyrank (nd a) <? tyrank (nd b) = true) as ->.
    { apply Nat.ltb_lt. destruct (nodeof h b); try discriminate nb; destruct (nodeof h a); try discriminate Va; destruct seq; cbn; lia. }
    rewrite Va, nb. pose proof (sreps_trans _ _ _ S1 S2) as S12.
    destruct (occurs_reported (tab s2) N a b (S f) B2) as (l' & E3); auto; try lia.
    + apply S12. eapply rep_self; eauto.
    + eapply contains_reps; [exact S12|]. inversion C as [? R|? c y R I C']; subst; [contradiction|].
      assert (c = b) by (eapply rep_fun; eauto). subst c. eapply ct_part; eauto. eapply rep_self; eauto.
    + rewrite E3. reflexivity.
Qed.
End Reported.
