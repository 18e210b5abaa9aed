(* Comparing types: exact on finite types. *)
From Verif Require Import Base Unify_Spec Unify_Model Unify_Proofs Unify_Same.
Open Scope nat_scope.

Lemma same_inv strict h l x y a b : same strict h l x y -> rep l x a -> rep l y b -> a = b \/ alike strict (same strict h l) (nodeof h a) (nodeof h b).
Proof.
  intros S Ra Rb. destruct (same_respected _ _ _ _ _ S) as (a' & b' & Ra' & Rb' & E).
  rewrite (rep_fun _ _ _ _ Ra Ra'), (rep_fun _ _ _ _ Rb Rb'). auto.
Qed.
Section Finite.
Variable h : heap.
Notation nd := (nodeof h).
Variable l : links.
Hypothesis T : forall x, exists a, rep l x a.
Variable size : tid -> nat.
Hypothesis Sl : forall x y, l x = Some y -> size x = size y.
Hypothesis Sp : forall x y, In y (parts (nd x)) -> size y < size x.
Notation sm := (same true h l).
Lemma size_rep' x a : rep l x a -> size a = size x.
Proof. induction 1 as [x E|x y a E R IH]; auto. rewrite IH. symmetry. auto. Qed.
Lemma srefl' x : sm x x.
Proof. exists eq. split; auto. intros a b <-. destruct (T a) as [c H]. exists c, c. auto. Qed.
Lemma sm_intro x y a b : rep l x a -> rep l y b -> alike true sm (nd a) (nd b) -> sm x y.
Proof.
  intros Ra Rb Al. exists (fun u v => (u = x /\ v = y) \/ sm u v). split; auto. intros u v [[-> ->]|S].
  - exists a, b. split; auto. split; auto. right. eapply alike_mono'; [|exact Al]. auto.
  - destruct (same_respected _ _ _ _ _ S) as (c & d & Hc & Hd & E). exists c, d. split; auto. split; auto.
    destruct E as [E|E]; auto. right. eapply alike_mono'; [|exact E]. auto.
Qed.
Definition csound (c : list (tid * tid)) : Prop := forall a b, In (a, b) c -> sm a b.
(* the nodes being compared are larger than those still to compare *)
Definition above (av : list tid) (k : nat) : Prop := forall x, In x av -> k <= size x.
Definition exact (av bv : list tid) (r : res (bool * eqst)) (P : Prop) : Prop :=
  match r with
  | Ok (b, (c, av', bv')) => (b = true <-> P) /\ csound c /\ incl av' av /\ incl bv' bv
  | Err => False
  | Fuel => True
  end.
Lemma above_incl av av' k : incl av' av -> above av k -> above av' k.
Proof. intros L H x Ix. auto. Qed.
Lemma exact_incl av bv av' bv' r P : incl av' av -> incl bv' bv -> exact av' bv' r P -> exact av bv r P.
Proof.
  intros La Lb. destruct r as [[b [[c x] y]]| |]; cbn; auto. intros (H & C & A & B). split; auto. split; auto.
  split; intros z Iz; auto.
Qed.
Section Rec.
Variables ka kb : nat.
Variable rec : eqst -> tid -> tid -> res (bool * eqst).
Hypothesis Hrec : forall c av bv x y, csound c -> above av ka -> above bv kb -> size x < ka -> size y < kb -> exact av bv (rec (c, av, bv) x y) (sm x y).
Lemma list_exact xs : forall ys c av bv, csound c -> above av ka -> above bv kb -> (forall x, In x xs -> size x < ka) -> (forall x, In x ys -> size x < kb) ->
  length xs = length ys -> exact av bv (tyeq_list rec (c, av, bv) xs ys) (Forall2 sm xs ys).
Proof.
  induction xs as [|x xs IH]; intros [|y ys] c av bv C A B Hx Hy L; cbn [length] in L; try discriminate; cbn [tyeq_list].
  - cbn. split; [split; auto; constructor|]. split; auto. split; apply incl_refl.
  - specialize (Hrec c av bv x y C A B (Hx x (or_introl eq_refl)) (Hy y (or_introl eq_refl))).
    destruct (rec (c, av, bv) x y) as [[b [[c1 av1] bv1]]| |]; cbn [bind exact] in *; auto. destruct Hrec as (H & C1 & A1 & B1).
    destruct b.
    + specialize (IH ys c1 av1 bv1 C1 (above_incl _ _ _ A1 A) (above_incl _ _ _ B1 B) (fun z Iz => Hx z (or_intror Iz)) (fun z Iz => Hy z (or_intror Iz)) ltac:(lia)).
      apply (exact_incl _ _ _ _ _ _ A1 B1) in IH.
      destruct (tyeq_list rec (c1, av1, bv1) xs ys) as [[b2 [[c2 av2] bv2]]| |]; cbn [exact] in *; auto.
      destruct IH as (H2 & C2 & A2). split; auto. rewrite H2. split; intros F.
      * constructor; auto. now apply H.
      * now inversion F.
    + split; auto. split; [discriminate|]. intros F. inversion F; subst. apply H; auto.
Qed.
Lemma membs_exact ms : forall ms' c av bv, csound c -> above av ka -> above bv kb -> (forall n x, In (n, Some x) ms -> size x < ka) ->
  (forall n x, In (n, Some x) ms' -> size x < kb) -> length ms = length ms' ->
  exact av bv (tyeq_membs rec (c, av, bv) ms ms') (same_list (orel sm) ms ms').
Proof.
  induction ms as [|[n x] ms IH]; intros [|[n' y] ms'] c av bv C A B Hx Hy L; cbn [length] in L; try discriminate; cbn [tyeq_membs].
  - cbn. split; [split; auto; constructor|]. split; auto. split; apply incl_refl.
  - assert (K : exact av bv (tyeq_opt rec (c, av, bv) x y) (orel sm x y)).
    { destruct x as [x|], y as [y|]; cbn [tyeq_opt orel].
      - apply Hrec; auto; [eapply Hx|eapply Hy]; left; reflexivity.
      - cbn. split; [split; [discriminate|tauto]|]. split; auto. split; apply incl_refl.
      - cbn. split; [split; [discriminate|tauto]|]. split; auto. split; apply incl_refl.
      - cbn. split; [tauto|]. split; auto. split; apply incl_refl. }
    destruct (tyeq_opt rec (c, av, bv) x y) as [[b [[c1 av1] bv1]]| |]; cbn [bind exact] in *; auto. destruct K as (H & C1 & A1 & B1).
    destruct (N.eqb_spec n n') as [<-|D]; cbn [andb]; [destruct b|].
    + specialize (IH ms' c1 av1 bv1 C1 (above_incl _ _ _ A1 A) (above_incl _ _ _ B1 B) (fun m z Iz => Hx m z (or_intror Iz)) (fun m z Iz => Hy m z (or_intror Iz)) ltac:(lia)).
      apply (exact_incl _ _ _ _ _ _ A1 B1) in IH.
      destruct (tyeq_membs rec (c1, av1, bv1) ms ms') as [[b2 [[c2 av2] bv2]]| |]; cbn [exact] in *; auto.
      destruct IH as (H2 & C2 & A2). split; auto. rewrite H2. unfold same_list. split; intros F.
      * constructor; auto. split; auto. now apply H.
      * now inversion F.
    + split; auto. split; [discriminate|]. intros F. inversion F as [|? ? ? ? [_ O] F']; subst. apply H; auto.
    + split; auto. split; [discriminate|]. intros F. inversion F as [|? ? ? ? [E O] F']; subst. cbn in E. contradiction.
Qed.
End Rec.
Lemma smembs_list (R : tid -> tid -> Prop) ms : forall ms', same_list (orel R) (smembs ms) (smembs ms') <-> same_list R ms ms'.
Proof.
  unfold same_list, smembs. induction ms as [|[n x] ms IH]; intros [|[n' y] ms']; cbn; split; intros F; try constructor; inversion F; subst; auto.
  - now apply IH.
  - now apply IH.
Qed.
Lemma in_del x y bs : In x (del bs y) -> In x bs.
Proof. unfold del. intros H. apply filter_In in H. tauto. Qed.
Lemma in_del_ne x y bs : In x (del bs y) -> x <> y.
Proof. unfold del. intros H. apply filter_In in H as [_ H]. destruct (Nat.eqb_spec x y); [discriminate|auto]. Qed.
Lemma smembs_len ms : length (smembs ms) = length ms.
Proof. apply map_length. Qed.
Lemma smembs_parts n t ms : In (n, Some t) (smembs ms) -> In t (map snd ms).
Proof. intros Im. apply smembs_in in Im as (t' & E & Im). injection E as <-. apply in_map_iff. exists (n, t). auto. Qed.
Lemma umembs_parts (n : name) t ms : In (n, Some t) ms -> In t (flat_map (fun m : name * option tid => oparts (snd m)) ms).
Proof. intros Im. apply in_flat_map. exists (n, Some t). split; auto. cbn. auto. Qed.

Lemma tyeq_exact f : forall c av bv a b, csound c -> above av (S (size a)) -> above bv (S (size b)) ->
  exact av bv (tyeq_rec h f l (c, av, bv) a b) (sm a b).
Proof.
  induction f as [|f IH]; intros c av bv a b C A B; [exact I|]. cbn [tyeq_rec].
  destruct (tysearch (S f) l a) as [a'| |] eqn:Ea; cbn [bind]; [|exfalso|exact I].
  2:{ clear - Ea. revert a Ea. generalize (S f) as g. induction g as [|g IH]; intros a E; [discriminate|]. cbn [tysearch] in E. destruct (l a); [eauto|discriminate]. }
  destruct (tysearch (S f) l b) as [b'| |] eqn:Eb; cbn [bind]; [|exfalso|exact I].
  2:{ clear - Eb. revert b Eb. generalize (S f) as g. induction g as [|g IH]; intros a E; [discriminate|]. cbn [tysearch] in E. destruct (l a); [eauto|discriminate]. }
  apply tysearch_ok in Ea as Ra. apply tysearch_ok in Eb as Rb. clear Ea Eb.
  rewrite <- (size_rep' _ _ Ra) in A. rewrite <- (size_rep' _ _ Rb) in B.
  assert (Kp : forall P : Prop, (true = true <-> P) -> exact av bv (Ok (true, (c, av, bv))) P).
  { intros P H. cbn. split; auto. split; auto. split; apply incl_refl. }
  assert (Fls : (a' <> b' -> ~ alike true sm (nd a') (nd b')) -> a' <> b' -> exact av bv (Ok (false, (c, av, bv))) (sm a b)).
  { intros Na D. cbn. split; [split; [discriminate|]|split; auto; split; apply incl_refl]. intros S. exfalso. destruct (same_inv _ _ _ _ _ _ _ S Ra Rb); tauto. }
  destruct (samekind (nodeof h a') (nodeof h b')) eqn:Ek; cbn [negb].
  2:{ assert (D : a' <> b') by (intros ->; destruct (nodeof h b'); cbn in Ek; try discriminate; rewrite N.eqb_refl in Ek; discriminate).
      apply Fls; auto. intros _ Al. destruct (nodeof h a'), (nodeof h b'); cbn in *; try contradiction; try discriminate. subst. rewrite N.eqb_refl in Ek. discriminate. }
  destruct (Nat.eqb_spec (narg (nodeof h a')) (narg (nodeof h b'))) as [E1|E1]; cbn [negb].
  2:{ assert (D : a' <> b') by (intros ->; congruence). apply Fls; auto. intros _ Al. apply E1.
      destruct (nodeof h a'), (nodeof h b'); cbn in *; try contradiction; auto. destruct Al as (_ & F & _). clear - F. induction F; cbn; auto. }
  destruct (Nat.eqb_spec (nsub (nodeof h a')) (nsub (nodeof h b'))) as [E2|E2]; cbn [negb].
  2:{ assert (D : a' <> b') by (intros ->; congruence). apply Fls; auto. intros _ Al. apply E2.
      destruct (nodeof h a'), (nodeof h b'); cbn in *; try contradiction; auto; clear - Al; induction Al; cbn; auto. }
  destruct (Nat.eqb_spec (nmemb (nodeof h a')) (nmemb (nodeof h b'))) as [E3|E3]; cbn [negb].
  2:{ assert (D : a' <> b') by (intros ->; congruence). apply Fls; auto. intros _ Al. apply E3.
      destruct (nodeof h a'), (nodeof h b'); cbn in *; try contradiction; auto; clear - Al; induction Al; cbn; auto. }
  destruct (cached c a' b') eqn:Ec.
  { apply Kp. split; auto. intros _. unfold cached in Ec. apply existsb_exists in Ec as ([p q] & Ip & E).
    apply andb_prop in E as [X Y]. apply Nat.eqb_eq in X, Y. cbn in X, Y. subst p q. apply C in Ip.
    destruct (same_inv _ _ _ _ _ _ _ Ip (rep_self _ _ _ Ra) (rep_self _ _ _ Rb)) as [<-|Al].
    - exists (fun u v => (u = a /\ v = b) \/ u = v). split; auto. intros u v [[-> ->]|<-]; [exists a', a'; auto|].
      destruct (T u) as [w R]. exists w, w. auto.
    - eapply sm_intro; eauto. }
  destruct (Nat.eqb_spec a' b') as [<-|D].
  { apply Kp. split; auto. intros _.
    exists (fun u v => (u = a /\ v = b) \/ u = v). split; auto. intros u v [[-> ->]|<-]; [exists a', a'; auto|].
    destruct (T u) as [w R]. exists w, w. auto. }
  assert (Hin : forall bs x, has bs x = true -> In x bs).
  { intros bs x Hx. unfold has in Hx. apply existsb_exists in Hx as (z & Iz & E). apply Nat.eqb_eq in E. now subst. }
  assert (has av a' = false) as -> by (destruct (has av a') eqn:X; auto; specialize (A _ (Hin _ _ X)); lia). cbn [andb].
  destruct (has bv a' && has av b') eqn:X.
  { exfalso. apply andb_prop in X as [X1 X2]. specialize (A _ (Hin _ _ X2)). specialize (B _ (Hin _ _ X1)). lia. }
  assert (A' : above (put av a') (size a')) by (intros z [<-|Iz]; auto; specialize (A _ Iz); lia).
  assert (B' : above (put bv b') (size b')) by (intros z [<-|Iz]; auto; specialize (B _ Iz); lia).
  assert (Rec : forall c av bv x y, csound c -> above av (size a') -> above bv (size b') -> size x < size a' -> size y < size b' ->
     exact av bv (tyeq_rec h f l (c, av, bv) x y) (sm x y)).
  { intros c0 av0 bv0 x y C0 A0 B0 Lx Ly. apply IH; auto; intros z Iz; [specialize (A0 z Iz)|specialize (B0 z Iz)]; lia. }
  assert (Pa : forall x, In x (parts (nd a')) -> size x < size a') by (intros x; apply Sp).
  assert (Pb : forall x, In x (parts (nd b')) -> size x < size b') by (intros x; apply Sp).
  assert (Nd : exact (put av a') (put bv b') (tyeq_node (tyeq_rec h f l) (c, put av a', put bv b') (nd a') (nd b')) (alike true sm (nd a') (nd b'))).
  { revert A' B'. generalize (put av a') (put bv b'). clear A B X Fls Kp. intros av' bv' A B.
    assert (Bool : forall (r : bool) (P : Prop), (r = true <-> P) -> exact av' bv' (Ok (r, (c, av', bv'))) P).
    { intros r P H. cbn. split; auto. split; auto. split; apply incl_refl. }
    destruct (nodeof h a') eqn:Ea, (nodeof h b') eqn:Eb; cbn [samekind narg nsub nmemb parts] in *; try discriminate Ek; cbn [tyeq_node alike].
    - apply Bool. split; [discriminate|tauto].
    - apply Bool. apply N.eqb_eq in Ek. tauto.
    - apply Bool. apply N.eqb_eq.
    - apply Rec; auto; [apply Pa|apply Pb]; now left.
    - apply Rec; auto; [apply Pa|apply Pb]; now left.
    - destruct (N.eqb_spec sz sz0) as [E|E].
      + assert (K : exact av' bv' (tyeq_rec h f l (c, av', bv') t t0) (sm t t0)) by (apply Rec; auto; [apply Pa|apply Pb]; now left).
        destruct (tyeq_rec h f l (c, av', bv') t t0) as [[r [[c1 av1] bv1]]| |]; cbn [exact] in *; auto. split; [|tauto].
        rewrite (proj1 K). tauto.
      + apply Bool. split; [discriminate|tauto].
    - apply list_exact with (ka := size a') (kb := size b'); auto.
    - apply list_exact with (ka := size a') (kb := size b'); auto.
    - destruct (N.eqb_spec n n0) as [E|E]; [|apply Bool; split; [discriminate|tauto]].
      assert (K : exact av' bv' (tyeq_list (tyeq_rec h f l) (c, av', bv') args args0) (Forall2 sm args args0)).
      { apply list_exact with (ka := size a') (kb := size b'); auto; intros x Ix; [apply Pa|apply Pb]; apply in_or_app; auto. }
      destruct (tyeq_list (tyeq_rec h f l) (c, av', bv') args args0) as [[r [[c1 av1] bv1]]| |]; cbn [bind exact] in *; auto.
      destruct K as (K & C1 & A1 & B1). destruct r.
      + assert (K2 : exact av1 bv1 (tyeq_rec h f l (c1, av1, bv1) t t0) (sm t t0)).
        { apply Rec; [exact C1|exact (above_incl _ _ _ A1 A)|exact (above_incl _ _ _ B1 B)|apply Pa|apply Pb]; apply in_or_app; right; now left. }
        apply (exact_incl _ _ _ _ _ _ A1 B1) in K2.
        destruct (tyeq_rec h f l (c1, av1, bv1) t t0) as [[r [[c2 av2] bv2]]| |]; cbn [exact] in *; auto. split; [|tauto].
        rewrite (proj1 K2). tauto.
      + cbn [exact]. split; [|auto]. split; [discriminate|]. intros (_ & F & _). apply K in F. discriminate.
    - assert (K : exact av' bv' (tyeq_membs (tyeq_rec h f l) (c, av', bv') (smembs ms) (smembs ms0)) (same_list (orel sm) (smembs ms) (smembs ms0))).
      { apply membs_exact with (ka := size a') (kb := size b'); auto.
        - intros n x Ix. apply Pa. eapply smembs_parts; eauto.
        - intros n x Ix. apply Pb. eapply smembs_parts; eauto.
        - now rewrite !smembs_len. }
      destruct (tyeq_membs _ _ _ _) as [[r [[c1 av1] bv1]]| |]; cbn [exact] in *; auto. rewrite smembs_list in K. exact K.
    - apply membs_exact with (ka := size a') (kb := size b'); auto.
      + intros n x Ix. apply Pa. eapply umembs_parts; eauto.
      + intros n x Ix. apply Pb. eapply umembs_parts; eauto. }
  destruct (tyeq_node _ _ _ _) as [[r [[c1 av1] bv1]]| |]; cbn [bind exact] in *; auto. destruct Nd as (H & C1 & A1 & B1).
  split; [|split; [|split]].
  - rewrite H. split; intros K.
    + eapply sm_intro; eauto.
    + destruct (same_inv _ _ _ _ _ _ _ K Ra Rb); [contradiction|auto].
  - destruct r; auto. intros p q [E|Ip]; auto. injection E as <- <-. eapply sm_intro; [eapply rep_self; eauto|eapply rep_self; eauto|]. now apply H.
  - intros z Iz. pose proof (in_del_ne _ _ _ Iz). apply in_del, A1 in Iz. destruct Iz as [<-|Iz]; [contradiction|auto].
  - intros z Iz. pose proof (in_del_ne _ _ _ Iz). apply in_del, B1 in Iz. destruct Iz as [<-|Iz]; [contradiction|auto].
Qed.
End Finite.
