(* Unification against a solution: it never reports an error, only records what the solution implies, and ends if the
   solution's types are finite. *)
From Verif Require Import Base Unify_Spec Unify_Model Unify_Proofs Unify_Occurs.
Open Scope nat_scope.

(* chains of links inside the heap are no longer than the heap *)
Lemma repn_fun l n x a : repn l n x a -> forall m b, repn l m x b -> n = m /\ a = b.
Proof.
  induction 1 as [x E|n x y a E R IH]; intros m b K; inversion K as [? E'|m' ? y' ? E' K']; subst; try congruence; auto.
  assert (y' = y) by congruence. subst y'. destruct (IH _ _ K'). auto.
Qed.
Lemma rep_repn l x a : rep l x a -> exists n, repn l n x a.
Proof. induction 1 as [x E|x y a E R [n IH]]; [exists 0; now constructor|exists (S n); eapply rn_step; eauto]. Qed.
Lemma repn_path l n x a : repn l n x a -> exists p, length p = n /\ NoDup p /\
  forall y, In y p -> l y <> None /\ exists m, 0 < m <= n /\ repn l m y a.
Proof.
  induction 1 as [x E|n x y a E R (p & L & D & H)].
  - exists []. split; auto. split; [constructor|]. intros y [].
  - exists (x :: p). split; [cbn; lia|]. split.
    + constructor; auto. intros I. destruct (H x I) as (_ & m & Hm & Rm).
      assert (R' : repn l (S n) x a) by (eapply rn_step; eauto). destruct (repn_fun _ _ _ _ Rm _ _ R'). lia.
    + intros z [<-|I].
      * split; [congruence|]. exists (S n). split; [lia|]. eapply rn_step; eauto.
      * destruct (H z I) as (Nz & m & Hm & Rm). split; auto. exists m. split; auto. lia.
Qed.
Lemma heap_bounded (h : heap) l : (forall x, exists a, rep l x a) -> (forall x y, l x = Some y -> in_heap h x /\ in_heap h y) -> bounded l (length h).
Proof.
  intros T D x. destruct (T x) as [a Ra]. destruct (rep_repn _ _ _ Ra) as [n R]. exists n, a. split; auto.
  destruct (repn_path _ _ _ _ R) as (p & <- & ND & H).
  rewrite <- (seq_length (length h) 0). apply NoDup_incl_length; auto. intros y I. apply in_seq.
  destruct (H y I) as [Ny _]. destruct (l y) as [z|] eqn:E; [|congruence]. destruct (D _ _ E). unfold in_heap in *. lia.
Qed.

Lemma Forall2_len {A C} {R : A -> C -> Prop} {xs ys} : Forall2 R xs ys -> length xs = length ys.
Proof. induction 1; cbn; auto. Qed.

Section Sol.
Variable h : heap.
Notation nd := (nodeof h).
Variable Sm : tid -> tid -> Prop.
Hypothesis HSol : solution h Sm.
Hypothesis HNI : no_infinite h Sm.
Hypothesis HS : distinct_members h.
Hypothesis HU : distinct_members' h.
(* either running out of fuel is acceptable, or the types are finite *)
Variable slack : Prop.
Variable size : tid -> nat.
Hypothesis Hfin : slack \/ (closed h /\ (forall x y, Sm x y -> size x = size y) /\
  (forall x y, In y (parts (nd x)) -> size y < size x) /\ (forall x e, element h x e -> size e < size x)).
Definition B := 2 * length h + 4.
Definition enough (f k : nat) : Prop := slack \/ B + k < f.

Lemma srefl x : Sm x x. Proof. apply HSol. Qed.
Lemma ssym x y : Sm x y -> Sm y x. Proof. apply HSol. Qed.
Lemma strans x y z : Sm x y -> Sm y z -> Sm x z. Proof. apply HSol. Qed.

Definition I (l : links) : Prop :=
  (forall x y, l x = Some y -> Sm x y) /\ (slack \/ ((forall x, exists a, rep l x a) /\ (forall x y, l x = Some y -> in_heap h x /\ in_heap h y))).
Lemma I_rep l x a : I l -> rep l x a -> Sm x a.
Proof. intros [H _]. induction 1; [apply srefl|]. eapply strans; eauto. Qed.
Lemma I_heap l x a : I l -> slack \/ in_heap h x -> rep l x a -> slack \/ in_heap h a.
Proof.
  intros [_ [sl|[_ D]]] [sl'|Hx] R; auto. right. revert Hx. induction R as [x E|x y a E R IH]; auto. intros Hx. apply IH. now apply (D x y).
Qed.
Lemma I_compress l t p g : I l -> l t = Some p -> l p = Some g -> I (setlink l t g).
Proof.
  intros [H K] Et Ep. pose proof (compress_reps _ _ _ _ Et Ep) as C. split.
  - intros x y E. unfold setlink in E. destruct (Nat.eqb_spec x t) as [->|]; auto. injection E as <-.
    eapply strans; [exact (H _ _ Et)|exact (H _ _ Ep)].
  - destruct K as [sl|[T D]]; [now left|right]. split.
    + intros x. destruct (T x) as [a R]. exists a. now apply C.
    + intros x y E. unfold setlink in E. destruct (Nat.eqb_spec x t) as [->|]; auto. injection E as <-.
      split; [exact (proj1 (D _ _ Et))|exact (proj2 (D _ _ Ep))].
Qed.
Lemma I_link l a b : I l -> l a = None -> l b = None -> a <> b -> Sm a b -> slack \/ (in_heap h a /\ in_heap h b) -> I (setlink l a b).
Proof.
  intros [H K] Ea Eb D Sab Hh. split.
  - intros x y E. unfold setlink in E. destruct (Nat.eqb_spec x a) as [->|]; auto. now injection E as <-.
  - destruct K as [sl|[T Dm]]; [now left|]. destruct Hh as [sl|[Ha Hb]]; [now left|]. right. split.
    + now apply link_total.
    + intros x y E. unfold setlink in E. destruct (Nat.eqb_spec x a) as [->|]; auto. injection E as <-. auto.
Qed.
Lemma I_bounded l : I l -> slack \/ bounded l (length h).
Proof. intros [_ [sl|[T D]]]; auto. right. now apply heap_bounded. Qed.

Definition holds {A} (r : res A) (P : A -> Prop) : Prop := match r with Ok x => P x | Err => False | Fuel => slack end.
Lemma holds_bind {A C} (r : res A) (k : A -> res C) P Q : holds r P -> (forall x, P x -> holds (k x) Q) -> holds (bind r k) Q.
Proof. destruct r; cbn; auto; try tauto. Qed.
Lemma holds_mono {A} (r : res A) (P Q : A -> Prop) : (forall x, P x -> Q x) -> holds r P -> holds r Q.
Proof. destruct r; cbn; auto. Qed.

Lemma tylookup_holds f l t : I l -> slack \/ length h < f -> holds (tylookup f l t) (fun '(a, l') => rep l t a /\ sreps l l' /\ I l').
Proof.
  intros Il En. destruct (tylookup f l t) as [[a l']| |] eqn:E; cbn.
  - destruct (tylookup_ok _ _ _ _ _ E). split; auto. split; auto.
    eapply (tylookup_keeps I I_compress); eauto.
  - clear - E. revert l t E. induction f as [|f IH]; intros l t E; [discriminate|]. cbn [tylookup] in E.
    destruct (l t) as [p|]; [|discriminate]. destruct (l p); eauto.
  - destruct En as [sl|L]; auto. destruct (I_bounded l Il) as [sl|Bd]; auto.
    destruct (tylookup_bounded l _ f t Bd L) as (a & l' & E' & _). congruence.
Qed.
Lemma tf_holds f s t : I (tab s) -> slack \/ length h < f -> holds (tf f s t) (fun '(a, s') => rep (tab s) t a /\ sreps (tab s) (tab s') /\ I (tab s')).
Proof.
  intros Il En. unfold tf. eapply holds_bind; [now apply tylookup_holds|]. intros [a l'] H. exact H.
Qed.
(* the occurs check does not fire *)
Lemma within_S x y x' y' : within h Sm x y -> Sm x x' -> Sm y y' -> within h Sm x' y'.
Proof.
  intros W. revert x' y'. induction W as [x a y z Sxa Iy Syz|x y z W1 IH1 W2 IH2]; intros x' y' Sx Sy.
  - eapply wi_part; [|exact Iy|]; [eapply strans; [apply ssym; exact Sy|exact Sxa]|eapply strans; eauto].
  - eapply wi_trans; [apply IH1; [exact Sx|apply srefl]|apply IH2; [apply srefl|exact Sy]].
Qed.
Lemma anyoccurs_holds rec (bsok : tid -> Prop) : (forall l t, I l -> bsok t -> holds (rec l t) (fun '(r, l') => r = false /\ sreps l l' /\ I l')) ->
  forall ts l, I l -> (forall t, In t ts -> bsok t) -> holds (anyoccurs rec l ts) (fun '(r, l') => r = false /\ sreps l l' /\ I l').
Proof.
  intros Hr. induction ts as [|t ts IH]; intros l Il Hts; cbn [anyoccurs].
  - cbn. split; auto. split; auto. apply sreps_refl.
  - eapply holds_bind; [apply Hr; auto; apply Hts; now left|]. intros [r l1] (-> & S1 & I1).
    eapply holds_mono; [|apply IH; auto; intros t' It; apply Hts; now right].
    intros [r l2] (-> & S2 & I2). split; auto. split; auto. eapply sreps_trans; eauto.
Qed.
Lemma occurs_holds f : forall bs l t, I l -> (forall c, In c bs -> within h Sm t c) -> slack \/ length h + fresh h bs + 1 < f ->
  holds (occurs_rec h f l bs t) (fun '(r, l') => r = false /\ sreps l l' /\ I l').
Proof.
  induction f as [|f IH]; intros bs l t Il W En.
  { cbn. destruct En as [|En]; auto. lia. }
  rewrite occurs_rec_eq. eapply holds_bind; [apply tylookup_holds; auto; destruct En; [now left|right; lia]|].
  intros [a l1] (Ra & S1 & I1). pose proof (I_rep _ _ _ Il Ra) as Sta.
  destruct (has bs a) eqn:Ha.
  { exfalso. apply has_in in Ha. apply (HNI a). eapply within_S; [apply (W a Ha)|exact Sta|apply srefl]. }
  eapply holds_mono; [|eapply anyoccurs_holds with (bsok := fun y => In y (byvalue (nd a))); auto].
  - intros [r l'] (-> & S2 & I2). split; auto. split; auto. eapply sreps_trans; eauto.
  - intros l2 y I2 Iy. apply IH; auto.
    + assert (Wy : forall c, Sm c a -> within h Sm y c) by (intros c Sc; eapply wi_part; [exact Sc|exact Iy|apply srefl]).
      intros c [<-|Ic]; [apply Wy, srefl|]. eapply wi_trans; [apply Wy; exact Sta|]. now apply W.
    + destruct En as [|En]; [now left|right]. destruct (le_lt_dec (length h) a) as [O|In'].
      * rewrite nd_out in Iy by auto. destruct Iy.
      * pose proof (fresh_lt h bs a Ha In'). lia.
Qed.
Lemma fresh_le bs : fresh h bs <= length h.
Proof.
  unfold fresh. rewrite <- (seq_length (length h) 0) at 2. generalize (seq 0 (length h)). intros xs.
  induction xs as [|x xs IH]; auto. cbn [filter]. destruct (negb _); cbn [length]; lia.
Qed.
Lemma occursin_holds f l a b : I l -> rep l a a -> rep l b b -> a <> b -> Sm a b -> enough f 0 ->
  holds (occursin h f l a b) (fun '(r, l') => r = false /\ sreps l l' /\ I l').
Proof.
  intros Il Ra Rb D Sab En. unfold enough, B in En. unfold occursin. eapply holds_bind; [apply tylookup_holds; auto; destruct En; [now left|right; lia]|].
  intros [a' l1] (Ra' & S1 & I1). rewrite (rep_fun _ _ _ _ Ra' Ra). destruct f as [|f].
  { cbn. destruct En; auto. lia. }
  rewrite occurs_rec_eq. eapply holds_bind; [apply tylookup_holds; auto; destruct En; [now left|right; lia]|].
  intros [b' l2] (Rb' & S2 & I2). assert (b' = b). { eapply rep_fun; [exact Rb'|apply S1; auto]. } subst b'.
  assert (has (put [] a) b = false) as Hb. { cbn. destruct (Nat.eqb_spec b a); [congruence|auto]. }
  rewrite Hb. eapply holds_mono; [|eapply anyoccurs_holds with (bsok := fun y => In y (byvalue (nd b))); auto].
  - intros [r l'] (-> & S3 & I3). split; auto. split; auto. eapply sreps_trans; eauto. eapply sreps_trans; eauto.
  - intros l3 y I3 Iy. apply occurs_holds; auto.
    + assert (Wy : forall c, Sm c b -> within h Sm y c) by (intros c Sc; eapply wi_part; [exact Sc|exact Iy|apply srefl]).
      intros c [<-|[<-|[]]]; apply Wy; auto. apply srefl.
    + destruct En as [|En]; [now left|right]. pose proof (fresh_le (put (put [] a) b)). lia.
Qed.

(* comparing types *)
Lemma size_rep l x a : I l -> rep l x a -> slack \/ size a = size x.
Proof. intros Il R. destruct Hfin as [|(_ & Sz & _)]; auto. right. symmetry. apply Sz. eapply I_rep; eauto. Qed.
Definition hb (r : res (bool * eqst)) := holds r (fun _ => True).
Lemma hb_bind r k : hb r -> (forall x, hb (k x)) -> hb (bind r k).
Proof. intros H K. eapply holds_bind; [exact H|]. intros x _. apply K. Qed.
Lemma tyeq_list_hb rec xs : (forall e x y, In x xs -> hb (rec e x y)) -> forall ys e, hb (tyeq_list rec e xs ys).
Proof.
  induction xs as [|x xs IH]; intros H ys e; [exact Logic.I|]. destruct ys as [|y ys]; [exact Logic.I|]. cbn [tyeq_list].
  apply hb_bind; [apply H; now left|]. intros [r e']. destruct r; [|exact Logic.I]. apply IH. intros. apply H. now right.
Qed.
Lemma tyeq_membs_hb rec ms : (forall e n x y, In (n, Some x) ms -> hb (rec e x y)) -> forall ms' e, hb (tyeq_membs rec e ms ms').
Proof.
  induction ms as [|[n x] ms IH]; intros H ms' e; [exact Logic.I|]. destruct ms' as [|[n' y] ms']; [exact Logic.I|]. cbn [tyeq_membs].
  apply hb_bind.
  - destruct x, y; cbn [tyeq_opt]; try exact Logic.I. eapply H. left. reflexivity.
  - intros [r e']. destruct (_ && _); [|exact Logic.I]. apply IH. intros. eapply H. right. eauto.
Qed.
Lemma tysearch_holds f l t : I l -> slack \/ length h < f -> holds (tysearch f l t) (fun a => rep l t a).
Proof.
  intros Il En. destruct (tysearch f l t) as [a| |] eqn:E; cbn.
  - eapply tysearch_ok; eauto.
  - clear - E. revert t E. induction f as [|f IH]; intros t E; [discriminate|]. cbn [tysearch] in E. destruct (l t); [eauto|discriminate].
  - destruct En as [sl|L]; auto. destruct (I_bounded l Il) as [sl|Bd]; auto.
    destruct (Bd t) as (n & a & Ln & R). exfalso. assert (n < f) by lia. clear - E R H. revert t n R E H.
    induction f as [|f IH]; intros t n R E H; [lia|]. cbn [tysearch] in E. inversion R as [? E'|m ? y ? E' R']; subst; rewrite E' in E; [discriminate|].
    eapply IH; eauto. lia.
Qed.
Lemma in_smembs_parts n t ms : In (n, Some t) (smembs ms) -> In t (map snd ms).
Proof. intros Im. apply smembs_in in Im as (t' & E & Im). injection E as <-. apply in_map_iff. exists (n, t). auto. Qed.
Lemma in_umembs_parts (n : name) t ms : In (n, Some t) ms -> In t (flat_map (fun m : name * option tid => oparts (snd m)) ms).
Proof. intros Im. apply in_flat_map. exists (n, Some t). split; auto. cbn. auto. Qed.
Lemma tyeq_holds f : forall l e a b, I l -> slack \/ length h + 1 + size a < f -> hb (tyeq_rec h f l e a b).
Proof.
  induction f as [|f IH]; intros l e a b Il En.
  { cbn. destruct En; auto. lia. }
  cbn [tyeq_rec]. eapply holds_bind; [apply tysearch_holds; auto; destruct En; [now left|right; lia]|]. intros a' Ra.
  eapply holds_bind; [apply tysearch_holds; auto; destruct En; [now left|right; lia]|]. intros b' Rb.
  assert (Rec : forall e x y, In x (parts (nd a')) -> hb (tyeq_rec h f l e x y)).
  { intros e' x y Ix. apply IH; auto. destruct En as [|En]; [now left|]. destruct (size_rep _ _ _ Il Ra) as [|Sz]; [now left|].
    destruct Hfin as [|(_ & _ & Sp & _)]; [now left|]. right. specialize (Sp a' x Ix). lia. }
  destruct (negb (samekind _ _)); [exact Logic.I|]. destruct (negb _); [exact Logic.I|]. destruct (negb _); [exact Logic.I|]. destruct (negb _); [exact Logic.I|].
  destruct e as [[c av] bv]. destruct (cached _ _ _); [exact Logic.I|]. destruct (_ =? _); [exact Logic.I|].
  destruct (_ && _); [exact Logic.I|]. destruct (_ && _); [exact Logic.I|].
  apply hb_bind; [|intros [r [[c' av'] bv']]; exact Logic.I].
  set (e := (c, put av a', put bv b')). clearbody e.
  destruct (nodeof h a') eqn:Ea, (nodeof h b') eqn:Eb; cbn [tyeq_node]; try exact Logic.I; try (apply Rec; cbn; now auto).
  - destruct (_ =? _)%N; [|exact Logic.I]. apply Rec. cbn. auto.
  - apply tyeq_list_hb. intros. apply Rec. auto.
  - apply tyeq_list_hb. intros. apply Rec. auto.
  - destruct (_ =? _)%N; [|exact Logic.I]. apply hb_bind.
    + apply tyeq_list_hb. intros. apply Rec. cbn. apply in_or_app. auto.
    + intros [r e']. destruct r; [|exact Logic.I]. apply Rec. cbn. apply in_or_app. right. now left.
  - apply tyeq_membs_hb. intros. apply Rec. cbn. eapply in_smembs_parts; eauto.
  - apply tyeq_membs_hb. intros. apply Rec. cbn. eapply in_umembs_parts; eauto.
Qed.
Lemma tyeq_top f s a b : I (tab s) -> enough f (size a) -> holds (tyeq h f s a b) (fun '(_, s') => tab s' = tab s).
Proof.
  intros Il En. unfold enough, B in En. unfold tyeq. eapply holds_bind; [apply tyeq_holds; auto; destruct En; [now left|right; lia]|].
  intros [r e] _. reflexivity.
Qed.
(* underlying types *)
Lemma size_part x y : In y (parts (nd x)) -> slack \/ size y < size x.
Proof. intros Iy. destruct Hfin as [|(_ & _ & Sp & _)]; auto. Qed.
Lemma basetype_holds f : forall t, slack \/ size t < f -> holds (basetype h f t) (fun o => match o with Some e => element h t e | None => True end).
Proof.
  induction f as [|f IH]; intros t En.
  { cbn. destruct En; auto. lia. }
  cbn [basetype]. destruct (nodeof h t) eqn:E; cbn; auto.
  - destruct seq; auto. now apply el_var.
  - now apply el_ptr.
  - now apply el_slice.
  - eapply el_array; eauto.
  - assert (Ip : In t0 (parts (nd t))) by (rewrite E; cbn; apply in_or_app; right; now left).
    eapply holds_mono; [|apply IH].
    + intros [e|]; auto. intros El. eapply el_name; eauto.
    + destruct En as [|En]; [now left|]. destruct (size_part _ _ Ip); [now left|right; lia].
Qed.
Lemma tybase_holds f : forall t, slack \/ size t < f -> holds (tybase h f t) (fun _ => True).
Proof.
  induction f as [|f IH]; intros t En.
  { cbn. destruct En; auto. lia. }
  cbn [tybase]. destruct (nodeof h t) eqn:E; cbn; auto. apply IH.
  assert (Ip : In t0 (parts (nd t))) by (rewrite E; cbn; apply in_or_app; right; now left).
  destruct En as [|En]; [now left|]. destruct (size_part _ _ Ip); [now left|right; lia].
Qed.
Lemma tybase_rel f : forall a b u v, Sm a b -> tybase h f a = Ok u -> tybase h f b = Ok v ->
  Sm u v \/ isvar (nd u) = true \/ isvar (nd v) = true.
Proof.
  induction f as [|f IH]; intros a b u v Sab Eu Ev; [discriminate|]. cbn [tybase] in Eu, Ev.
  destruct (isvar (nd a)) eqn:Va.
  { right. left. destruct (nodeof h a) eqn:Ea; try discriminate Va. injection Eu as <-. now rewrite Ea. }
  destruct (isvar (nd b)) eqn:Vb.
  { right. right. destruct (nodeof h b) eqn:Eb; try discriminate Vb. injection Ev as <-. now rewrite Eb. }
  pose proof (sol_alike _ _ HSol _ _ Sab Va Vb) as Al.
  destruct (nodeof h a) eqn:Ea, (nodeof h b) eqn:Eb; cbn [alike] in Al; try contradiction;
    try (injection Eu as <-; injection Ev as <-; now left).
  eapply IH; [|exact Eu|exact Ev]. tauto.
Qed.
Lemma size_base f : forall a u, tybase h f a = Ok u -> slack \/ size u <= size a.
Proof.
  induction f as [|f IH]; intros a u E; [discriminate|]. cbn [tybase] in E.
  destruct (nodeof h a) eqn:Ea; try (injection E as <-; auto).
  assert (Ip : In t (parts (nd a))) by (rewrite Ea; cbn; apply in_or_app; right; now left).
  destruct (size_part _ _ Ip); auto. destruct (IH _ _ E); auto. right. lia.
Qed.

(* the recursive calls *)
Definition within_size (k : nat) (x : tid) : Prop := slack \/ (in_heap h x /\ size x < k).
Definition sound (k : nat) (u : state -> tid -> tid -> res state) : Prop :=
  forall s x y, I (tab s) -> Sm x y -> within_size k x -> within_size k y -> holds (u s x y) (fun s' => I (tab s')).
Definition hs (r : res state) := holds r (fun s' => I (tab s')).
Lemma list_hs k u : sound k u -> forall xs ys s, I (tab s) -> Forall2 Sm xs ys -> (forall x, In x xs -> within_size k x) ->
  (forall x, In x ys -> within_size k x) -> hs (unify_list u s xs ys).
Proof.
  intros G xs ys s Is F. revert s Is. induction F as [|x y xs ys Sxy F IH]; intros s Is Hx Hy; cbn [unify_list].
  - exact Is.
  - eapply holds_bind; [apply G; auto; [apply Hx|apply Hy]; now left|]. intros s' Is'. apply IH; auto; intros z Iz; [apply Hx|apply Hy]; now right.
Qed.
Lemma memb_hs k u : sound k u -> forall ms s n x, I (tab s) -> (forall y, In (n, y) ms -> orel Sm x y) ->
  (forall t, x = Some t -> within_size k t) -> (forall t, In (n, Some t) ms -> within_size k t) ->
  holds (unify_memb u s n x ms) (fun '(r, s') => I (tab s') /\ ((exists y, In (n, y) ms) -> r = true)).
Proof.
  intros G. induction ms as [|[n' y] ms IH]; intros s n x Is Ho Hx Hy; cbn [unify_memb].
  - cbn. split; auto. intros [y []].
  - destruct (N.eqb_spec n n') as [<-|Dn].
    + assert (Oy : orel Sm x y) by (apply Ho; now left). eapply holds_bind with (P := fun s' => I (tab s')).
      { destruct x as [x|], y as [y|]; cbn in Oy; try contradiction; [|exact Is]. apply G; auto. apply Hy. now left. }
      intros s1 I1. eapply holds_bind; [apply IH; auto; intros z Iz; [apply Ho|apply Hy]; now right|].
      intros [r s2] (I2 & _). cbn. auto.
    + eapply holds_mono; [|apply IH; auto; intros z Iz; [apply Ho|apply Hy]; now right].
      intros [r s'] (I' & Hr). split; auto. intros [z [E|Iz]]; eauto. injection E as -> _. congruence.
Qed.
Lemma membs_hs k u : sound k u -> forall ms' ms s, I (tab s) -> (forall n x, In (n, x) ms -> exists y, In (n, y) ms') ->
  (forall n x y, In (n, x) ms -> In (n, y) ms' -> orel Sm x y) ->
  (forall n t, In (n, Some t) ms -> within_size k t) -> (forall n t, In (n, Some t) ms' -> within_size k t) ->
  hs (unify_membs u s ms ms').
Proof.
  intros G ms'. induction ms as [|[n x] ms IH]; intros s Is Hf Ho Hx Hy; cbn [unify_membs].
  - exact Is.
  - eapply holds_bind; [apply (memb_hs k u G); auto|].
    + intros y Iy. eapply Ho; eauto. now left.
    + intros t ->. apply (Hx n). now left.
    + apply Hy.
    + intros [r s1] (I1 & Hr). rewrite Hr by (eapply Hf; now left). apply IH; auto.
      * intros m z Iz. eapply Hf. right. eauto.
      * intros m z y Iz. apply Ho. now right.
      * intros m t It. apply (Hx m). now right.
Qed.
Lemma nodup_fst {A} (ms : list (name * A)) n x y : NoDup (map fst ms) -> In (n, x) ms -> In (n, y) ms -> x = y.
Proof.
  induction ms as [|[m z] ms IH]; intros D Ix Iy; [destruct Ix|]. cbn in D. inversion D as [|? ? Nin D']; subst.
  assert (K : forall w, In (m, w) ms -> False) by (intros w Iw; apply Nin, in_map_iff; exists (m, w); auto).
  destruct Ix as [E|Ix], Iy as [E'|Iy]; auto.
  - congruence.
  - injection E as -> ->. exfalso. eauto.
  - injection E' as -> ->. exfalso. eauto.
Qed.
Lemma part_within k x y : slack \/ (in_heap h x /\ size x <= k) -> In y (parts (nd x)) -> within_size k y.
Proof.
  intros [|[Hx L]] Iy; [now left|]. destruct Hfin as [|(C & _ & Sp & _)]; [now left|]. right.
  split; [now apply (proj1 (C x))|]. specialize (Sp x y Iy). lia.
Qed.
Lemma matchup_hs k u : sound k u -> forall s a b, I (tab s) -> Sm a b -> isvar (nd a) = false -> isvar (nd b) = false ->
  slack \/ (in_heap h a /\ size a <= k) -> slack \/ (in_heap h b /\ size b <= k) -> hs (matchup u s (nd a) (nd b)).
Proof.
  intros G s a b Is Sab Va Vb Ka Kb. pose proof (sol_alike _ _ HSol _ _ Sab Va Vb) as Al.
  assert (Pa : forall y, In y (parts (nd a)) -> within_size k y) by (intros y; now apply part_within).
  assert (Pb : forall y, In y (parts (nd b)) -> within_size k y) by (intros y; now apply part_within).
  clear Ka Kb. destruct (nodeof h a) eqn:Ea, (nodeof h b) eqn:Eb; cbn [alike] in Al; try contradiction; cbn [matchup parts] in *; try exact Is;
    try discriminate Va.
  - subst k1. rewrite N.eqb_refl. exact Is.
  - apply G; auto; [apply Pa|apply Pb]; now left.
  - apply G; auto; [apply Pa|apply Pb]; now left.
  - destruct Al as [-> Al]. rewrite N.eqb_refl. apply G; auto; [apply Pa|apply Pb]; now left.
  - rewrite (Forall2_len Al). rewrite Nat.eqb_refl. eapply list_hs; eauto.
  - rewrite (Forall2_len Al). rewrite Nat.eqb_refl. eapply list_hs; eauto.
  - destruct Al as (-> & F & St'). rewrite N.eqb_refl. cbn [negb]. eapply holds_bind with (P := fun s' => I (tab s')).
    + destruct (_ && _); [|exact Is]. rewrite (Forall2_len F). rewrite Nat.eqb_refl. eapply list_hs; eauto; intros z Iz;
        [apply Pa|apply Pb]; apply in_or_app; auto.
    + intros s' Is'. apply G; auto; [apply Pa|apply Pb]; apply in_or_app; right; now left.
Qed.
Lemma members_of {A} (R : A -> A -> Prop) ms ms' : NoDup (map fst ms') -> same_members R ms ms' ->
  length ms = length ms' /\ (forall n x, In (n, x) ms -> exists y, In (n, y) ms') /\ (forall n x y, In (n, x) ms -> In (n, y) ms' -> R x y).
Proof.
  intros D (L & C & _). split; auto. split.
  - intros n x Ix. destruct (C n x Ix) as (y & Iy & _). eauto.
  - intros n x y Ix Iy. destruct (C n x Ix) as (y' & Iy' & r). now rewrite (nodup_fst _ _ _ _ D Iy Iy').
Qed.
Lemma tybase_heap f : forall a u, slack \/ in_heap h a -> tybase h f a = Ok u -> slack \/ in_heap h u.
Proof.
  induction f as [|f IH]; intros a u Ha E; [discriminate|]. cbn [tybase] in E.
  destruct (nodeof h a) eqn:Ea; try (injection E as <-; auto).
  eapply IH; [|exact E]. destruct Hfin as [|(C & _)]; auto. right. apply (proj1 (C a)). rewrite Ea. cbn. apply in_or_app. right. now left.
Qed.
Lemma membunify_hs k u f : sound k u -> forall s a b, I (tab s) -> Sm a b ->
  slack \/ (in_heap h a /\ size a <= k) -> slack \/ (in_heap h b /\ size b <= k) -> slack \/ k < f -> hs (membunify h u f s a b).
Proof.
  intros G s a b Is Sab Ka Kb En. unfold membunify.
  assert (Ha : holds (tybase h f a) (fun _ => True)) by (apply tybase_holds; destruct Ka as [|[]]; auto; destruct En; auto; right; lia).
  assert (Hb : holds (tybase h f b) (fun _ => True)) by (apply tybase_holds; destruct Kb as [|[]]; auto; destruct En; auto; right; lia).
  destruct (tybase h f a) as [a'| |] eqn:Ea; cbn in Ha; try contradiction; [|exact Ha].
  destruct (tybase h f b) as [b'| |] eqn:Eb; cbn in Hb; try contradiction; [|exact Hb]. cbn [bind].
  assert (Ka' : slack \/ (in_heap h a' /\ size a' <= k)).
  { destruct Ka as [|[H1 H2]]; auto. destruct (tybase_heap _ _ _ (or_intror H1) Ea); auto. destruct (size_base _ _ _ Ea); auto. right. split; auto. lia. }
  assert (Kb' : slack \/ (in_heap h b' /\ size b' <= k)).
  { destruct Kb as [|[H1 H2]]; auto. destruct (tybase_heap _ _ _ (or_intror H1) Eb); auto. destruct (size_base _ _ _ Eb); auto. right. split; auto. lia. }
  destruct (a' =? b'); [exact Is|].
  pose proof (tybase_rel _ _ _ _ _ Sab Ea Eb) as Rl.
  destruct (nodeof h a') eqn:Na, (nodeof h b') eqn:Nb; try exact Is.
  - assert (Sm a' b') as Sab' by (destruct Rl as [|[X|X]]; auto; rewrite ?Na, ?Nb in X; discriminate).
    pose proof (sol_alike _ _ HSol _ _ Sab') as Al. rewrite Na, Nb in Al. specialize (Al eq_refl eq_refl). cbn [alike] in Al.
    destruct (members_of _ _ _ (HS _ _ Nb) Al) as (L & F & O). rewrite L, Nat.eqb_refl. apply (membs_hs k u G); auto.
    + intros n x Ix. apply smembs_in in Ix as (t & -> & It). destruct (F _ _ It) as [y Iy]. exists (Some y). now apply in_smembs.
    + intros n x y Ix Iy. apply smembs_in in Ix as (t & -> & It). apply smembs_in in Iy as (t' & -> & It'). cbn. eauto.
    + intros n t It. eapply part_within; [exact Ka'|]. rewrite Na. cbn. eapply in_smembs_parts; eauto.
    + intros n t It. eapply part_within; [exact Kb'|]. rewrite Nb. cbn. eapply in_smembs_parts; eauto.
  - assert (Sm a' b') as Sab' by (destruct Rl as [|[X|X]]; auto; rewrite ?Na, ?Nb in X; discriminate).
    pose proof (sol_alike _ _ HSol _ _ Sab') as Al. rewrite Na, Nb in Al. specialize (Al eq_refl eq_refl). cbn [alike] in Al.
    destruct (members_of _ _ _ (HU _ _ Nb) Al) as (L & F & O). rewrite L, Nat.eqb_refl. apply (membs_hs k u G); auto.
    + intros n t It. eapply part_within; [exact Ka'|]. rewrite Na. cbn. eapply in_umembs_parts; eauto.
    + intros n t It. eapply part_within; [exact Kb'|]. rewrite Nb. cbn. eapply in_umembs_parts; eauto.
Qed.
Theorem unify_sound f : forall s u v, I (tab s) -> Sm u v -> slack \/ (in_heap h u /\ in_heap h v /\ B + size u < f) ->
  hs (unify h f s u v).
Proof.
  induction f as [|f IH]; intros s u v Is Suv En.
  { cbn. destruct En as [|(_ & _ & L)]; auto. lia. }
  assert (Hu : slack \/ in_heap h u) by tauto. assert (Hv : slack \/ in_heap h v) by tauto.
  assert (Lk : slack \/ length h < S f) by (destruct En as [|(_ & _ & L)]; auto; right; unfold B in L; lia).
  cbn [unify]. eapply holds_bind; [now apply tf_holds|]. intros [a s1] (Ra & S1 & I1).
  eapply holds_bind; [now apply tf_holds|]. intros [b s2] (Rb & S2 & I2).
  destruct (Nat.eqb_spec a b) as [->|D]; [exact I2|].
  pose proof (I_rep _ _ _ Is Ra) as Sua. pose proof (I_rep _ _ _ I1 Rb) as Svb.
  assert (Sab : Sm a b). { eapply strans; [apply ssym; exact Sua|]. eapply strans; [exact Suv|exact Svb]. }
  pose proof (I_heap _ _ _ Is Hu Ra) as Ha. pose proof (I_heap _ _ _ I1 Hv Rb) as Hb.
  assert (Za : slack \/ (size a = size u /\ size b = size u)).
  { destruct Hfin as [|(_ & Sz & _)]; auto. right. split; symmetry; apply Sz; auto. eapply strans; [exact Suv|exact Svb]. }
  assert (Ra2 : rep (tab s2) a a) by (eapply rep_self; apply S2, S1; exact Ra).
  assert (Rb2 : rep (tab s2) b b) by (eapply rep_self; apply S2; exact Rb).
  assert (Big : slack \/ B + size u < S f) by tauto.
  assert (Rec : sound (size u) (unify h f)).
  { intros s' x y Is' Sxy Kx Ky. apply IH; auto. destruct Kx as [|[Hx Lx]], Ky as [|[Hy Ly]], Big as [|Bg]; try (left; assumption). right. split; auto. split; auto. lia. }
  assert (W : exists p q, (if tyrank (nodeof h b) <? tyrank (nodeof h a) then (b, a) else (a, b)) = (p, q) /\
    tyrank (nd p) <= tyrank (nd q) /\ rep (tab s2) p p /\ rep (tab s2) q q /\ p <> q /\ Sm p q /\
    (slack \/ (in_heap h p /\ size p <= size u)) /\ (slack \/ (in_heap h q /\ size q <= size u))).
  { assert (Ka : slack \/ (in_heap h a /\ size a <= size u)) by (destruct Ha, Za as [|[]]; auto; right; split; auto; lia).
    assert (Kb : slack \/ (in_heap h b /\ size b <= size u)) by (destruct Hb, Za as [|[]]; auto; right; split; auto; lia).
    destruct (Nat.ltb_spec (tyrank (nodeof h b)) (tyrank (nodeof h a))).
    - exists b, a. split; auto. split; [lia|]. split; auto. split; auto. split; auto. split; [now apply ssym|auto].
    - exists a, b. split; auto. split; [lia|]. repeat (split; auto). }
  destruct W as (p & q & -> & Rk & Rp & Rq & Dpq & Spq & Kp & Kq). destruct (isvar (nodeof h p)) eqn:Vp.
  - eapply holds_bind with (P := fun s' => sreps (tab s2) (tab s') /\ I (tab s')).
    { destruct (isvar (nodeof h q)); [cbn; split; auto; apply sreps_refl|].
      eapply holds_bind; [apply occursin_holds; auto; destruct Big; [now left|right; lia]|].
      intros [r l] (-> & S3 & I3). cbn. auto. }
    intros s3 (S3 & I3).
    assert (I4 : I (tab (link s3 p q))).
    { apply I_link; auto.
      - apply S3 in Rp. now apply rep_last in Rp.
      - apply S3 in Rq. now apply rep_last in Rq.
      - destruct Kp as [|[]]; auto. destruct Kq as [|[]]; auto. }
    set (s4 := link s3 p q) in *. clearbody s4.
    eapply holds_bind; [apply basetype_holds; destruct Kp as [|[]]; auto; destruct Big; auto; right; lia|]. intros ea Hea.
    eapply holds_bind; [apply basetype_holds; destruct Kq as [|[]]; auto; destruct Big; auto; right; lia|]. intros eb Heb.
    assert (Kel : forall x e, slack \/ (in_heap h x /\ size x <= size u) -> element h x e -> within_size (size u) e).
    { intros x e [|[Hx Lx]] El; [now left|]. destruct Hfin as [|(C & _ & _ & Se)]; [now left|]. right.
      split; [now apply (proj2 (C x))|]. specialize (Se x e El). lia. }
    destruct ea as [ea|], eb as [eb|].
    + eapply holds_bind; [now apply tf_holds|]. intros [ea' s5] (R5 & S5 & I5).
      eapply holds_bind; [now apply tf_holds|]. intros [eb' s6] (R6 & S6 & I6).
      pose proof (I_rep _ _ _ I4 R5) as Sea. pose proof (I_rep _ _ _ I5 R6) as Seb.
      pose proof (sol_elem _ _ HSol _ _ _ _ Spq Hea Heb) as See.
      pose proof (Kel _ _ Kp Hea) as Kea. pose proof (Kel _ _ Kq Heb) as Keb.
      assert (Tr : forall l e e', I l -> rep l e e' -> within_size (size u) e -> within_size (size u) e').
      { intros l e e' Il Re [|[He Le]]; [now left|]. destruct (I_heap _ _ _ Il (or_intror He) Re); [now left|].
        destruct (size_rep _ _ _ Il Re); [now left|]. right. split; auto. lia. }
      apply Rec; auto.
      * eapply strans; [apply ssym; exact Sea|]. eapply strans; [exact See|exact Seb].
      * exact (Tr _ _ _ I4 R5 Kea).
      * exact (Tr _ _ _ I5 R6 Keb).
    + eapply holds_bind; [now apply tf_holds|]. intros [ea' s5] (R5 & S5 & I5). exact I5.
    + eapply holds_bind; [now apply tf_holds|]. intros [ea' s5] (R5 & S5 & I5). exact I5.
    + exact I4.
  - assert (Vq : isvar (nodeof h q) = false).
    { destruct (nodeof h p), (nodeof h q); cbn in *; try discriminate Vp; auto; destruct seq; lia. }
    eapply holds_bind; [apply tyeq_top; auto; unfold enough; destruct Kp as [|[]]; auto; destruct Big; auto; right; lia|].
    intros [r s3] Et.
    assert (I3 : I (tab (if r then link s3 p q else s3))).
    { destruct r; cbn [tab link]; rewrite Et; auto. apply I_link; auto; try (eapply rep_last; eauto).
      destruct Kp as [|[]]; auto. destruct Kq as [|[]]; auto. }
    eapply holds_bind; [apply (matchup_hs (size u) _ Rec); eauto|]. intros s4 I4.
    apply (membunify_hs (size u) _ _ Rec); auto. destruct Big; auto. right. lia.
Qed.
End Sol.
