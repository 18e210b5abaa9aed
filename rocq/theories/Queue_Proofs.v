From Verif Require Import Base Conc Queue_Spec Queue_Model.
Open Scope Z_scope.

Section Proofs.
Context {V : Type}.
Implicit Types (s : queue V) (p : pc V) (ps : list (pc V)) (f : nat -> doing V) (q : list V).
Definition holds p : bool :=
  match p with PChk _ | PHd _ | PNext _ | PTl _ | PSig | PWake | PUnl | GChk | CSeq | CUnl _ | GTake | GNext _ | GUnl _ => true | _ => false end.
Definition own p : option nat :=
  match p with PLock a | PChk a | PHd a | PNext a => Some a | GUnl n | GRead n => Some n | GFree n _ => Some n | _ => None end.
(* what a thread's place says about the shared state and about its operation *)
Definition okp s p (d : doing V) : Prop :=
  match p with
  | Idle => d = Quiet
  | PMk v _ => d = Putting v
  | PLock a | PChk a => exists v, heap s a = Some (mknode v None) /\ d = Putting v
  | PHd a => (exists v, heap s a = Some (mknode v None) /\ d = Putting v) /\ hd s = None
  | PNext a => (exists v, heap s a = Some (mknode v None) /\ d = Putting v) /\ hd s <> None
  | PTl _ | PSig | PWake | PUnl => d = Putdone
  | GLock | GChk | CWait _ | CSleep | CLock => d = Getting
  | CSeq | CUnl _ => d = Getting /\ hd s = None
  | GTake => d = Getting /\ hd s <> None
  | GNext n => d = Getting /\ hd s = Some n
  | GUnl n | GRead n => exists v nx, heap s n = Some (mknode v nx) /\ d = Got v
  | GFree n v => (exists x, heap s n = Some x) /\ d = Got v
  end.
(* the nodes from h on, and their values *)
Fixpoint path (hp : nat -> option (node V)) (h : option nat) (ns : list nat) (q : list V) : Prop :=
  match ns, q with
  | [], [] => h = None
  | a :: ns, v :: q => h = Some a /\ exists nx, hp a = Some (mknode v nx) /\ path hp nx ns q
  | _, _ => False
  end.
Definition tailok s ps (ns : list nat) : Prop :=
  ns = [] \/ tl s = Some (last ns 0%nat) /\ (forall t a, nth_error ps t <> Some (PTl a)) \/ exists t, nth_error ps t = Some (PTl (last ns 0%nat)).
Record Inv (c : queue V * list (pc V)) (l : (nat -> doing V) * list V) : Prop := mkInv {
  i_bad : bad (fst c) = false;
  i_lock : forall t p, nth_error (snd c) t = Some p -> (holds p = true <-> mtx (fst c) = Some t);
  i_in : forall t, mtx (fst c) = Some t -> (t < length (snd c))%nat;
  i_ok : forall t p, nth_error (snd c) t = Some p -> okp (fst c) p (fst l t);
  i_own : forall t u p r a, nth_error (snd c) t = Some p -> nth_error (snd c) u = Some r -> own p = Some a -> own r = Some a -> t = u;
  i_path : exists ns, path (heap (fst c)) (hd (fst c)) ns (snd l) /\ NoDup ns /\
             (forall t p a, nth_error (snd c) t = Some p -> own p = Some a -> ~ In a ns) /\ tailok (fst c) (snd c) ns;
  i_ptl : forall t a, nth_error (snd c) t = Some (PTl a) -> hd (fst c) <> None }.

Lemma okp_frame s s' p d : okp s p d -> (forall a, own p = Some a -> heap s' a = heap s a) -> (hd s' = hd s \/ holds p = false) -> okp s' p d.
Proof.
  intros H F G. destruct p; cbn in *; auto; try (rewrite (F _ eq_refl); auto; fail);
  destruct G as [G|G]; try discriminate; rewrite ?G; rewrite ?(F _ eq_refl); auto.
Qed.
Lemma path_frame hp hp' : forall ns h q, path hp h ns q -> (forall a, In a ns -> hp' a = hp a) -> path hp' h ns q.
Proof.
  induction ns as [|a ns IH]; intros h [|v q] P F; cbn in *; auto. destruct P as (-> & nx & Ha & P). split; auto. exists nx. rewrite F by auto. auto.
Qed.
Lemma path_app hp a x : forall ns h q b, path hp h ns q -> ns <> [] -> last ns 0%nat = b -> NoDup ns -> ~ In a ns -> hp a = Some (mknode x None) ->
  exists n, hp b = Some n /\ path (fset hp b (Some (mknode (nv n) (Some a)))) h (ns ++ [a]) (q ++ [x]).
Proof.
  induction ns as [|c ns IH]; intros h q b P Ne L N Na Ha; [congruence|]. destruct q as [|v q]; [contradiction|]. cbn in P. destruct P as (-> & nx & Hc & P).
  inversion N as [|? ? Nc N']; subst. destruct ns as [|d ns].
  - cbn [last]. destruct q; [|contradiction]. cbn in P. subst nx. exists (mknode v None). split; auto. cbn.
    split; auto. exists (Some a). unfold fset. rewrite Nat.eqb_refl. split; auto. split; auto. exists None. split; auto.
    destruct (Nat.eqb_spec a c); [subst; exfalso; apply Na; left; auto|auto].
  - destruct (IH nx q (last (d :: ns) 0%nat) P) as (n & Hb & P'); auto; [discriminate|intros X; apply Na; right; auto|].
    change (last (c :: d :: ns) 0%nat) with (last (d :: ns) 0%nat). exists n. split; auto. cbn [app path]. split; auto. exists nx. split; auto.
    unfold fset. destruct (Nat.eqb_spec c (last (d :: ns) 0%nat)) as [E|E]; auto. exfalso. apply Nc. rewrite E. clear. revert d. induction ns as [|e ns IH]; intros d; [left; auto|]. right. apply IH.
Qed.

(* thread t alone moves *)
Lemma inv_step s ps f q t p p' s' d q' : Inv (s, ps) (f, q) -> nth_error ps t = Some p ->
  bad s' = false -> (holds p' = true <-> mtx s' = Some t) -> (forall u, u <> t -> (mtx s' = Some u <-> mtx s = Some u)) ->
  (forall u r a, u <> t -> nth_error ps u = Some r -> own r = Some a -> heap s' a = heap s a) ->
  (hd s' = hd s \/ mtx s = Some t) -> okp s' p' d ->
  (forall u r a, u <> t -> nth_error ps u = Some r -> own r = Some a -> own p' <> Some a) ->
  (exists ns, path (heap s') (hd s') ns q' /\ NoDup ns /\
     (forall u r a, u <> t -> nth_error ps u = Some r -> own r = Some a -> ~ In a ns) /\ (forall a, own p' = Some a -> ~ In a ns) /\ tailok s' (upd ps t p') ns) ->
  (forall a, p' = PTl a -> hd s' <> None) ->
  Inv (s', upd ps t p') (fset f t d, q').
Proof.
  intros I Ht B L1 L2 Hf Hh K On (ns & P1 & P2 & P3 & P4 & P5) Pt. destruct I as [Ib Il Ii Io Iw Ip It]. cbn [fst snd] in *.
  assert (L : (t < length ps)%nat) by (apply nth_error_Some; congruence).
  assert (Hh2 : forall u r, u <> t -> nth_error ps u = Some r -> hd s' = hd s \/ holds r = false).
  { intros u r Nu Hu. destruct Hh as [Hh|Hh]; auto. right. destruct (holds r) eqn:E; auto. apply (Il u r Hu) in E. congruence. }
  constructor; cbn [fst snd]; auto.
  - intros u r Hu. apply nth_error_upd_inv in Hu as [(<- & ->)|(Ne & Hu)]; auto. rewrite L2 by auto. apply Il; auto.
  - intros u Hu. rewrite upd_length. destruct (Nat.eq_dec u t) as [->|Ne]; auto. apply Ii. apply L2; auto.
  - intros u r Hu. unfold fset. apply nth_error_upd_inv in Hu as [(<- & ->)|(Ne & Hu)]; [rewrite Nat.eqb_refl; auto|].
    destruct (Nat.eqb_spec u t) as [->|Nu]; [congruence|]. eapply okp_frame; eauto.
  - intros u w r x a Hu Hw Ea Eb. apply nth_error_upd_inv in Hu as [(<- & ->)|(Ne & Hu)]; apply nth_error_upd_inv in Hw as [(<- & ->)|(Nw & Hw)]; auto.
    + exfalso. eapply On; [|exact Hw|exact Eb|exact Ea]. auto.
    + exfalso. eapply On; [|exact Hu|exact Ea|exact Eb]. auto.
    + eapply Iw; eauto.
  - exists ns. repeat split; auto. intros u r a Hu Ea. apply nth_error_upd_inv in Hu as [(<- & ->)|(Ne & Hu)]; auto. eapply P3; eauto.
  - intros u a Hu. apply nth_error_upd_inv in Hu as [(<- & E)|(Ne & Hu)]; [eauto|]. destruct (Hh2 u _ (not_eq_sym Ne) Hu) as [G|G]; [rewrite G; eapply It; eauto|discriminate].
Qed.

Lemma inv_ext c f f' q : Inv c (f, q) -> (forall t, f t = f' t) -> Inv c (f', q).
Proof. intros [Ib Il Ii Io Iw Ip It] E. constructor; auto. intros t p Ht. cbn [fst] in *. rewrite <- E. auto. Qed.
Lemma fset_id {A} (f : nat -> A) t u : fset f t (f t) u = f u.
Proof. unfold fset. destruct (Nat.eqb_spec u t); congruence. Qed.
Definition isptl p := match p with PTl _ => true | _ => false end.
Lemma tailok_upd s s' ps ns t p p' : nth_error ps t = Some p -> tl s' = tl s -> isptl p = false -> isptl p' = false -> tailok s ps ns -> tailok s' (upd ps t p') ns.
Proof.
  intros Ht E1 E2 E3 [T|[(T & T2)|(u & T)]]; [left; auto|right; left|right; right].
  - rewrite E1. split; auto. intros u a Hu. apply nth_error_upd_inv in Hu as [(<- & <-)|(Ne & Hu)]; [discriminate|]. eapply T2; eauto.
  - exists u. rewrite nth_error_upd_ne; auto. intros <-. rewrite Ht in T. injection T as ->. discriminate.
Qed.
(* moves that touch neither the heap nor the list, and are no effect of an operation *)
Lemma inv_quiet s ps f q t p p' s' d : Inv (s, ps) (f, q) -> nth_error ps t = Some p ->
  heap s' = heap s -> hd s' = hd s -> tl s' = tl s -> bad s' = bad s ->
  (holds p' = true <-> mtx s' = Some t) -> (forall u, u <> t -> (mtx s' = Some u <-> mtx s = Some u)) ->
  okp s' p' d -> (forall a, own p' = Some a -> own p = Some a) -> isptl p = false -> isptl p' = false ->
  Inv (s', upd ps t p') (fset f t d, q).
Proof.
  intros I Ht E1 E2 E3 E4 L1 L2 K O N1 N2. pose proof I as [Ib Il Ii Io Iw (ns & P1 & P2 & P3 & P4) It]. cbn [fst snd] in *.
  eapply inv_step; [exact I|exact Ht|congruence|exact L1|exact L2| |left; exact E2|exact K|..].
  - intros. now rewrite E1.
  - intros u r a Nu Hu Ea Eb. apply O in Eb. apply Nu. eapply Iw; eauto.
  - exists ns. rewrite E1, E2. repeat split; auto; [intros; eapply P3; eauto|intros a Ea; eapply P3; eauto|eapply tailok_upd; eauto].
  - intros a ->. discriminate.
Qed.
Lemma no_lock s ps l t : Inv (s, ps) l -> mtx s = Some t -> exists p, nth_error ps t = Some p /\ holds p = true.
Proof.
  intros I H. pose proof (i_in _ _ I t H) as L. cbn [snd] in L. destruct (nth_error ps t) as [p|] eqn:E; [|apply nth_error_None in E; lia].
  exists p. split; auto. apply (i_lock _ _ I t p E). auto.
Qed.
(* only the lock holder can be at PTl *)
Lemma ptl_me s ps l t p u a : Inv (s, ps) l -> nth_error ps t = Some p -> mtx s = Some t -> nth_error ps u = Some (PTl a) -> u = t.
Proof. intros I Ht M Hu. pose proof (proj1 (i_lock _ _ I u _ Hu) eq_refl) as X. cbn in X. congruence. Qed.
Lemma tail_here s ps l ns t p : Inv (s, ps) l -> nth_error ps t = Some p -> mtx s = Some t -> isptl p = false -> tailok s ps ns -> ns = [] \/ tl s = Some (last ns 0%nat).
Proof.
  intros I Ht M N [T|[(T & _)|(u & T)]]; auto. exfalso. pose proof (ptl_me _ _ _ _ _ _ _ I Ht M T). subst u. rewrite Ht in T. injection T as ->. discriminate.
Qed.
Lemma noptl s ps l t p p' : Inv (s, ps) l -> nth_error ps t = Some p -> mtx s = Some t -> isptl p' = false -> forall u a, nth_error (upd ps t p') u <> Some (PTl a).
Proof.
  intros I Ht M N u a Hu. apply nth_error_upd_inv in Hu as [(<- & <-)|(Ne & Hu)]; [discriminate|]. apply Ne. symmetry. eapply ptl_me; eauto.
Qed.
Lemma path_none hp ns q : path hp None ns q -> ns = [] /\ q = [].
Proof. destruct ns, q; cbn; intuition congruence. Qed.
Lemma path_in hp : forall ns h q a, path hp h ns q -> In a ns -> exists x, hp a = Some x.
Proof.
  induction ns as [|b ns IH]; intros h [|v q] a P Hin; cbn in *; try contradiction. destruct P as (-> & nx & Hb & P). destruct Hin as [<-|Hin]; eauto.
Qed.
Lemma own_alloc s p d a : okp s p d -> own p = Some a -> exists x, heap s a = Some x.
Proof.
  destruct p; cbn; intros H E; try discriminate; injection E as <-.
  1,2: destruct H as (v & H & _); eauto.
  1,2: destruct H as [(v & H & _) _]; eauto.
  1,2: destruct H as (v & nx & H & _); eauto.
  destruct H as [H _]; auto.
Qed.

Lemma lock_one {A} (m : option A) t : (forall u, u <> t -> (m = Some u <-> m = Some u)). Proof. tauto. Qed.
(* how a step changes the number of queued items *)
Definition zq p : Z := match p with PHd _ | PNext _ => 1 | GNext _ => -1 | _ => 0 end.
Definition inv_act_goal ps f q t p p' s' e :=
  exists h l', erase h = e /\ Z.of_nat (length (snd l')) = Z.of_nat (length q) + zq p /\ lrun (f, q) h l' /\ Inv (s', upd ps t p') l'.
Lemma goal_quiet s ps f q t p p' s' : Inv (s, ps) (f, q) -> nth_error ps t = Some p ->
  heap s' = heap s -> hd s' = hd s -> tl s' = tl s -> bad s' = bad s ->
  (holds p' = true <-> mtx s' = Some t) -> (forall u, u <> t -> (mtx s' = Some u <-> mtx s = Some u)) ->
  okp s' p' (f t) -> (forall a, own p' = Some a -> own p = Some a) -> isptl p = false -> isptl p' = false -> zq p = 0 -> inv_act_goal ps f q t p p' s' [].
Proof.
  intros. exists [], (f, q). split; [reflexivity|]. split; [cbn [snd zq]; lia|]. split; [constructor|]. eapply inv_ext; [eapply inv_quiet; eauto|]. intros. apply fset_id.
Qed.
Lemma lrun1 (c : (nat -> doing V) * list V) e c' : lstep c e c' -> lrun c [e] c'.
Proof. intros. econstructor; [eassumption|constructor]. Qed.
Lemma NoDup_app_snoc {A} (l : list A) a : NoDup l -> ~ In a l -> NoDup (l ++ [a]).
Proof. intros N Na. apply NoDup_rev in N. rewrite <- (rev_involutive (l ++ [a])). apply NoDup_rev. rewrite rev_app_distr. cbn. constructor; auto. now rewrite <- in_rev. Qed.
Ltac qt I Ht := eapply goal_quiet; [exact I|exact Ht|reflexivity|reflexivity|reflexivity|reflexivity| | | | |reflexivity|reflexivity|reflexivity]; cbn [holds own okp set_mtx set_seq mtx heap hd].
Lemma act_inv s ps f q t p p' s' ef e : Inv (s, ps) (f, q) -> nth_error ps t = Some p -> act t p s = Some (p', s', ef, e) -> inv_act_goal ps f q t p p' s' e.
Proof.
  intros I Ht Ha. pose proof (i_ok _ _ I t p Ht) as K. pose proof (i_lock _ _ I t p Ht) as Lk. cbn [fst snd] in K, Lk.
  pose proof (i_path _ _ I) as (ns & P1 & P2 & P3 & P4). cbn [fst snd] in P1, P3, P4. pose proof (i_bad _ _ I) as Bd. cbn [fst] in Bd.
  destruct p; cbn [act] in Ha; try discriminate.
  - (* PMk *) destruct (heap s a) as [x|] eqn:Ea; [discriminate|]. injection Ha as <- <- <- <-. cbn [okp] in K. cbn [holds] in Lk.
    assert (Fr : forall u r b, nth_error ps u = Some r -> own r = Some b -> b <> a).
    { intros u r b Hu Eb ->. pose proof (i_ok _ _ I u r Hu) as Ku. cbn [fst] in Ku. destruct (own_alloc _ _ _ _ Ku Eb). congruence. }
    assert (Nn : ~ In a ns) by (intros X; destruct (path_in _ _ _ _ _ P1 X); congruence).
    exists [], (f, q). split; [reflexivity|]. split; [cbn [snd zq]; lia|]. split; [constructor|]. apply inv_ext with (f := fset f t (f t)); [|intros; apply fset_id].
    eapply inv_step; [exact I|exact Ht|exact Bd|exact Lk|apply lock_one|..].
    + intros u r b Nu Hu Eb. cbn. unfold fset. destruct (Nat.eqb_spec b a); auto. exfalso. eapply Fr; eauto.
    + left; reflexivity.
    + cbn. exists v. unfold fset. rewrite Nat.eqb_refl. auto.
    + intros u r b Nu Hu Eb E. injection E as <-. eapply Fr; eauto.
    + exists ns. cbn [alloc store hd heap]. repeat split; auto.
      * eapply path_frame; [exact P1|]. intros b Hb. unfold fset. destruct (Nat.eqb_spec b a); congruence.
      * intros u r b Nu Hu Eb. eapply P3; eauto.
      * intros b E. injection E as <-. exact Nn.
      * eapply tailok_upd; eauto.
    + discriminate.
  - (* PLock *) unfold lockor in Ha. destruct (mtx s) as [m|] eqn:Em; injection Ha as <- <- <- <-; qt I Ht; auto.
    + rewrite Em. exact Lk.
    + tauto.
    + split; auto.
    + intros u Nu. rewrite Em. split; [congruence|discriminate].
  - (* PChk *) cbn in Lk, K. injection Ha as <- <- <- <-. destruct (hd s) eqn:Eh; qt I Ht; auto; try tauto. rewrite Eh. split; auto. discriminate.
  - (* PHd *) cbn in Lk, K. destruct K as ((v & Hv & Fv) & Hh). injection Ha as <- <- <- <-. rewrite Hh in P1. apply path_none in P1 as [-> ->].
    exists [Put t v], (fset f t Putdone, [v]). split; [reflexivity|]. split; [cbn [snd zq]; rewrite ?app_length; cbn [length]; lia|]. split; [apply lrun1; apply (l_put f [] t v Fv)|].
    eapply inv_step; [exact I|exact Ht|exact Bd|exact Lk|apply lock_one|reflexivity|right; tauto|reflexivity|discriminate|..].
    + exists [a]. cbn [set_hd hd heap path]. repeat split; auto.
      * exists None. auto.
      * constructor; [intros []|constructor].
      * intros u r b Nu Hu Eb [<-|[]]. apply Nu. eapply (i_own _ _ I); eauto.
      * discriminate.
      * right. right. exists t. cbn [last]. eapply nth_error_upd_same; eauto.
    + discriminate.
  - (* PNext *) cbn in Lk, K. destruct K as ((v & Hv & Fv) & Hh).
    assert (M : mtx s = Some t) by tauto. destruct (tail_here _ _ _ _ _ _ I Ht M eq_refl P4) as [->|T].
    { exfalso. destruct q; [|contradiction]. cbn in P1. congruence. }
    assert (Na : ~ In a ns) by (eapply P3; eauto).
    destruct (path_app _ a v _ _ _ (last ns 0%nat) P1) as (n & Hn & P'); auto.
    { intros ->. destruct q; [|contradiction]. cbn in P1. congruence. }
    assert (Lin : In (last ns 0%nat) ns).
    { destruct ns as [|d ns]; [destruct q; [|contradiction]; cbn in P1; congruence|]. clear. revert d. induction ns as [|e ns IH]; intros d; [left; auto|]. right. apply IH. }
    rewrite T, Hn in Ha. injection Ha as <- <- <- <-.
    exists [Put t v], (fset f t Putdone, q ++ [v]). split; [reflexivity|]. split; [cbn [snd zq]; rewrite ?app_length; cbn [length]; lia|]. split; [apply lrun1; constructor; auto|].
    eapply inv_step; [exact I|exact Ht|exact Bd|exact Lk|apply lock_one| |left; reflexivity|reflexivity|discriminate|..].
    + intros u r b Nu Hu Eb. cbn. unfold fset. destruct (Nat.eqb_spec b (last ns 0%nat)); auto. subst. exfalso. eapply P3; eauto.
    + exists (ns ++ [a]). cbn [store hd heap]. repeat split; auto.
      * apply NoDup_app_snoc; auto.
      * intros u r b Nu Hu Eb Hin. apply in_app_or in Hin as [Hin|[<-|[]]]; [eapply P3; eauto|]. apply Nu. eapply (i_own _ _ I); eauto.
      * discriminate.
      * right. right. exists t. rewrite last_last. eapply nth_error_upd_same; eauto.
    + auto.
  - (* PTl *) cbn in Lk, K. injection Ha as <- <- <- <-. assert (M : mtx s = Some t) by tauto.
    assert (El : ns = [] \/ last ns 0%nat = a).
    { destruct P4 as [P4|[(_ & X)|(u & X)]]; auto; [exfalso; eapply X; eauto|]. pose proof (ptl_me _ _ _ _ _ _ _ I Ht M X). subst u. rewrite Ht in X. injection X as ->. auto. }
    exists [], (f, q). split; [reflexivity|]. split; [cbn [snd zq]; lia|]. split; [constructor|]. apply inv_ext with (f := fset f t (f t)); [|intros; apply fset_id].
    eapply inv_step; [exact I|exact Ht|exact Bd|exact Lk|apply lock_one|reflexivity|left; reflexivity|exact K|discriminate|..].
    + exists ns. cbn [set_tl hd heap]. repeat split; auto; try discriminate.
      * intros u r b Nu Hu Eb. eapply P3; eauto.
      * destruct El as [->|El]; [left; auto|]. right. left. rewrite El. split; auto. eapply noptl; eauto.
    + discriminate.
  - (* PSig *) cbn in Lk, K. injection Ha as <- <- <- <-. qt I Ht; auto; tauto.
  - (* PWake *) cbn in Lk, K. injection Ha as <- <- <- <-. qt I Ht; auto; tauto.
  - (* PUnl *) cbn in Lk, K. injection Ha as <- <- <- <-. assert (M : mtx s = Some t) by tauto.
    exists [Obs (PutRet t)], (fset f t Quiet, q). split; [reflexivity|]. split; [cbn [snd zq]; rewrite ?app_length; cbn [length]; lia|]. split; [apply lrun1; constructor; auto|].
    eapply inv_quiet; [exact I|exact Ht|reflexivity|reflexivity|reflexivity|reflexivity| | |reflexivity|discriminate|reflexivity|reflexivity]; cbn.
    + split; discriminate.
    + intros u Nu. rewrite M. split; congruence.
  - (* GLock *) unfold lockor in Ha. destruct (mtx s) as [m|] eqn:Em; injection Ha as <- <- <- <-; qt I Ht; auto.
    + rewrite Em. exact Lk.
    + tauto.
    + split; auto.
    + intros u Nu. rewrite Em. split; [congruence|discriminate].
  - (* GChk *) cbn in Lk, K. injection Ha as <- <- <- <-. destruct (hd s) eqn:Eh; qt I Ht; auto; try tauto; try discriminate; rewrite Eh; split; auto; discriminate.
  - (* CSeq *) cbn in Lk, K. injection Ha as <- <- <- <-. qt I Ht; auto; tauto.
  - (* CUnl *) cbn in Lk, K. injection Ha as <- <- <- <-. qt I Ht; auto; try tauto; [split; discriminate|]. assert (M : mtx s = Some t) by tauto. intros u Nu. rewrite M. split; congruence.
  - (* CWait *) cbn in Lk, K. injection Ha as <- <- <- <-. destruct (seq s =? c); qt I Ht; auto; tauto.
  - (* CLock *) unfold lockor in Ha. destruct (mtx s) as [m|] eqn:Em; injection Ha as <- <- <- <-; qt I Ht; auto.
    + rewrite Em. exact Lk.
    + tauto.
    + split; auto.
    + intros u Nu. rewrite Em. split; [congruence|discriminate].
  - (* GTake *) cbn in Lk, K. destruct K as (K & Hh). destruct (hd s) as [n|] eqn:Eh; [|congruence]. injection Ha as <- <- <- <-. qt I Ht; auto; try tauto.
  - (* GNext *) cbn in Lk, K. destruct K as (K & Hh). assert (M : mtx s = Some t) by tauto. rewrite Hh in Ha, P1.
    destruct ns as [|m ns]; [destruct q; cbn in P1; [discriminate|contradiction]|]. destruct q as [|v q]; [contradiction|]. cbn in P1. destruct P1 as (E & nx & Hm & P1).
    injection E as <-. rewrite Hm in Ha. injection Ha as <- <- <- <-. inversion P2 as [|? ? Nn P2']; subst.
    exists [Take t v], (fset f t (Got v), q). split; [reflexivity|]. split; [cbn [snd zq]; rewrite ?app_length; cbn [length]; lia|]. split; [apply lrun1; constructor; auto|].
    eapply inv_step; [exact I|exact Ht|exact Bd|exact Lk|apply lock_one|reflexivity|right; exact M| | |..].
    + cbn. exists v, nx. auto.
    + intros u r b Nu Hu Eb E. injection E as <-. eapply P3; eauto. left; auto.
    + exists ns. cbn [set_hd hd heap next]. repeat split; auto.
      * intros u r b Nu Hu Eb X. eapply P3; eauto. right; auto.
      * intros b E. injection E as <-. exact Nn.
      * destruct (tail_here _ _ _ _ _ _ I Ht M eq_refl P4) as [X|T]; [discriminate|]. destruct ns as [|b ns]; [left; auto|]. right. left. split; [exact T|]. eapply noptl; eauto.
    + discriminate.
  - (* GUnl *) cbn in Lk, K. injection Ha as <- <- <- <-. qt I Ht; auto; try tauto; [split; discriminate|]. assert (M : mtx s = Some t) by tauto. intros u Nu. rewrite M. split; congruence.
  - (* GRead *) cbn in Lk, K. destruct K as (v & nx & Hn & K). rewrite Hn in Ha. injection Ha as <- <- <- <-. qt I Ht; auto; try tauto. split; eauto.
  - (* GFree *) cbn in Lk, K. destruct K as ((x & Hn) & K). rewrite Hn in Ha. injection Ha as <- <- <- <-.
    exists [Obs (GetRet t v)], (fset f t Quiet, q). split; [reflexivity|]. split; [cbn [snd zq]; rewrite ?app_length; cbn [length]; lia|]. split; [apply lrun1; constructor; auto|].
    assert (Fr : forall u r b, u <> t -> nth_error ps u = Some r -> own r = Some b -> b <> n).
    { intros u r b Nu Hu Eb ->. apply Nu. eapply (i_own _ _ I); eauto. }
    eapply inv_step; [exact I|exact Ht|exact Bd|exact Lk|apply lock_one| |left; reflexivity|reflexivity|discriminate|..].
    + intros u r b Nu Hu Eb. cbn. unfold fset. destruct (Nat.eqb_spec b n); auto. exfalso. eapply Fr; eauto.
    + exists ns. cbn [store hd heap]. repeat split; auto; try discriminate.
      * eapply path_frame; [exact P1|]. intros b Hb. unfold fset. destruct (Nat.eqb_spec b n); auto. subst. exfalso. eapply P3; eauto. reflexivity.
      * intros u r b Nu Hu Eb. eapply P3; eauto.
      * eapply tailok_upd; eauto.
    + discriminate.
Qed.

Lemma lrun_app (c : (nat -> doing V) * list V) h c1 h' c2 : lrun c h c1 -> lrun c1 h' c2 -> lrun c (h ++ h') c2.
Proof. intros R. induction R; cbn; auto. intros. econstructor; eauto. Qed.
Lemma erase_app (a b : list (lev V)) : erase (a ++ b) = erase a ++ erase b.
Proof. induction a as [|[o| |] a IH]; cbn; congruence. Qed.
Lemma inv_wake s ps f q j : Inv (s, ps) (f, q) -> nth_error ps j = Some CSleep -> Inv (s, upd ps j CLock) (f, q).
Proof.
  intros I Hj. pose proof (i_ok _ _ I j _ Hj) as K. pose proof (i_lock _ _ I j _ Hj) as L. cbn in K, L. apply inv_ext with (f := fset f j (f j)); [|intros; apply fset_id].
  eapply inv_quiet; [exact I|exact Hj|reflexivity|reflexivity|reflexivity|reflexivity|exact L|tauto|exact K|discriminate|reflexivity|reflexivity].
Qed.
Lemma calls_inv dom adr s ps f q t p p' e : Inv (s, ps) (f, q) -> nth_error ps t = Some p -> In (p', e) (calls dom adr t p s) ->
  exists h l', erase h = e /\ snd l' = q /\ lrun (f, q) h l' /\ Inv (s, upd ps t p') l'.
Proof.
  intros I Ht Hc. destruct p; cbn in Hc; try contradiction. pose proof (i_ok _ _ I t _ Ht) as K. pose proof (i_lock _ _ I t _ Ht) as L. cbn in K, L.
  destruct Hc as [E|Hc].
  - injection E as <- <-. exists [Obs (GetCall t)], (fset f t Getting, q). split; [reflexivity|]. split; [reflexivity|]. split; [apply lrun1; constructor; auto|].
    eapply inv_quiet; [exact I|exact Ht|reflexivity|reflexivity|reflexivity|reflexivity|exact L|tauto|reflexivity|discriminate|reflexivity|reflexivity].
  - apply in_flat_map in Hc as (v & _ & Hc). apply in_map_iff in Hc as (a & E & _). injection E as <- <-.
    exists [Obs (PutCall t v)], (fset f t (Putting v), q). split; [reflexivity|]. split; [reflexivity|]. split; [apply lrun1; constructor; auto|].
    eapply inv_quiet; [exact I|exact Ht|reflexivity|reflexivity|reflexivity|reflexivity|exact L|tauto|reflexivity|discriminate|reflexivity|reflexivity].
Qed.
Lemma asleep_is dom adr a p : sleeps_on (queues dom adr) a p = true -> p = CSleep.
Proof. destruct p; cbn; intros; try discriminate. reflexivity. Qed.
Lemma act_eff t p s p' s' ef e : act t p s = Some (p', s', ef, e) -> ef = NoEff /\ p <> PWake \/ ef = Wake1 0 /\ p = PWake /\ p' = PUnl /\ s' = s /\ e = [].
Proof.
  destruct p; cbn; unfold lockor; intros H; try discriminate; repeat (match type of H with context [match ?x with _ => _ end] => destruct x eqn:? end); try discriminate;
    injection H as <- <- <- <-; try (left; split; congruence); right; auto.
Qed.
Lemma start_inv n : Inv (start n) (fun _ => Quiet, []).
Proof.
  unfold start. constructor; cbn [fst snd qinit hd heap bad mtx]; auto; try discriminate.
  - intros t p H. apply nth_error_repeat_inv in H. subst. cbn. split; discriminate.
  - intros t p H. apply nth_error_repeat_inv in H. subst. reflexivity.
  - intros t u p r a H _ E. apply nth_error_repeat_inv in H. subst. discriminate.
  - exists []. cbn. repeat split; auto; [constructor|]. left; auto.
  - intros t a H. apply nth_error_repeat_inv in H. discriminate.
Qed.
End Proofs.
