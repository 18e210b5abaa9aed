From Verif Require Import Base Conc Queue_Spec Queue_Model Queue_Proofs.
Open Scope Z_scope.

Section Live.
Context {V : Type}.
Implicit Types (s : queue V) (p : pc V) (ps : list (pc V)) (f : nat -> doing V) (q : list V) (es : list (obs V)).
Definition isput p := match p with PMk _ _ | PLock _ | PChk _ | PHd _ | PNext _ | PTl _ | PSig | PWake | PUnl => 1 | _ => 0 end.
Definition putpost p := match p with PTl _ | PSig | PWake | PUnl => 1 | _ => 0 end.
Definition sigd p := match p with PWake | PUnl => 1 | _ => 0 end.
Definition pend p := match p with PTl _ | PSig | PWake => 1 | _ => 0 end.
Definition gpost p := match p with GUnl _ | GRead _ | GFree _ _ => 1 | _ => 0 end.
Definition isget p := match p with GLock | GChk | CSeq | CUnl _ | CWait _ | CSleep | CLock | GTake | GNext _ | GUnl _ | GRead _ | GFree _ _ => 1 | _ => 0 end.
(* getters that will look at the queue again before they sleep, and those that will not *)
Definition awake (c : Z) p := match p with GLock | GChk | CLock | GTake | GNext _ => 1 | CUnl d | CWait d => if d =? c then 0 else 1 | _ => 0 end.
Definition doomed (c : Z) p := match p with CSleep => 1 | CUnl d | CWait d => if d =? c then 1 else 0 | _ => 0 end.
Arguments isput !p /. Arguments putpost !p /. Arguments sigd !p /. Arguments pend !p /. Arguments gpost !p /. Arguments isget !p /.
Arguments awake c !p /. Arguments doomed c !p /.
Ltac nn := intros []; cbn; try lia; match goal with |- context [if ?b then _ else _] => destruct b; lia end.
Lemma isput_nn p : 0 <= isput p. Proof. revert p. nn. Qed.
Lemma putpost_nn p : 0 <= putpost p. Proof. revert p. nn. Qed.
Lemma sigd_nn p : 0 <= sigd p. Proof. revert p. nn. Qed.
Lemma pend_nn p : 0 <= pend p. Proof. revert p. nn. Qed.
Lemma gpost_nn p : 0 <= gpost p. Proof. revert p. nn. Qed.
Lemma isget_nn p : 0 <= isget p. Proof. revert p. nn. Qed.
Lemma awake_nn c p : 0 <= awake c p. Proof. revert p. nn. Qed.
Lemma doomed_nn c p : 0 <= doomed c p. Proof. revert p. nn. Qed.

Definition zpc es := number is_putcall es. Definition zpr es := number is_putret es.
Definition zgc es := number is_getcall es. Definition zgr es := number is_getret es.
Record KInv s ps (q : list V) es : Prop := mkK {
  k1 : zpr es + tot putpost ps = zgr es + tot gpost ps + Z.of_nat (length q);
  k2 : zgc es = zgr es + tot isget ps;
  k3 : zpc es = zpr es + tot isput ps;
  k4 : seq s = zpr es + tot sigd ps;
  k5 : forall t c, nth_error ps t = Some (CUnl c) \/ nth_error ps t = Some (CWait c) -> c <= seq s;
  k6 : Z.of_nat (length q) <= tot (awake (seq s)) ps + tot pend ps \/ tot (doomed (seq s)) ps = 0;
  k7 : forall t u c, nth_error ps t = Some PWake -> nth_error ps u = Some (CWait c) -> c <> seq s }.

Lemma number_app P es es' : number P (es ++ es') = @number V P es + number P es'.
Proof. unfold number. rewrite filter_app, app_length. lia. Qed.
Lemma tot_le {A} (f g : A -> Z) (l : list A) : (forall i x, nth_error l i = Some x -> f x <= g x) -> tot f l <= tot g l.
Proof.
  induction l as [|x l IH]; intros H; [cbn; lia|]. assert (tot f l <= tot g l) by (apply IH; intros i y Hy; apply (H (S i) y Hy)). pose proof (H 0%nat x eq_refl). cbn. unfold tot in *. lia.
Qed.
Lemma sigd_le ps : tot sigd ps <= tot isput ps.
Proof. apply tot_le. intros i []; cbn; lia. Qed.
Lemma k_bound s ps q es : KInv s ps q es -> seq s <= zpc es.
Proof. intros K. rewrite (k4 _ _ _ _ K), (k3 _ _ _ _ K). pose proof (sigd_le ps). lia. Qed.

(* thread t moves, the counter unchanged *)
Lemma k_step s ps q es t p p' s' q' e : KInv s ps q es -> nth_error ps t = Some p -> seq s' = seq s ->
  zpr e + putpost p' - putpost p = zgr e + gpost p' - gpost p + (Z.of_nat (length q') - Z.of_nat (length q)) ->
  zgc e = zgr e + isget p' - isget p -> zpc e = zpr e + isput p' - isput p -> 0 = zpr e + sigd p' - sigd p ->
  (forall c, p' = CUnl c \/ p' = CWait c -> c <= seq s) ->
  (Z.of_nat (length q') - Z.of_nat (length q) <= awake (seq s) p' - awake (seq s) p + pend p' - pend p /\ doomed (seq s) p' <= doomed (seq s) p \/ tot (doomed (seq s)) ps - doomed (seq s) p + doomed (seq s) p' = 0 \/ q' = []) ->
  (forall c u, p' = CWait c -> nth_error ps u <> Some PWake) -> (p' <> PWake) ->
  KInv s' (upd ps t p') q' (es ++ e).
Proof.
  intros K Ht Es E1 E2 E3 E4 E5 E6 E7 E8. destruct K as [K1 K2 K3 K4 K5 K6 K7].
  unfold zpr, zgr, zgc, zpc in *.
  constructor; unfold zpr, zgr, zgc, zpc; rewrite ?number_app, ?Es, ?(tot_upd _ ps t p p' Ht); try lia.
  - intros u c Hu. destruct Hu as [Hu|Hu]; apply nth_error_upd_inv in Hu as [(<- & E)|(Ne & Hu)]; eauto.
  - pose proof (tot_nonneg (awake (seq s)) (upd ps t p') (awake_nn _)) as N1. pose proof (tot_nonneg pend (upd ps t p') pend_nn) as N2.
    rewrite (tot_upd _ ps t p p' Ht) in N1. rewrite (tot_upd _ ps t p p' Ht) in N2. pose proof (tot_nonneg (doomed (seq s)) (upd ps t p') (doomed_nn _)) as N3. rewrite (tot_upd _ ps t p p' Ht) in N3.
    destruct E6 as [(E6 & E6')|[E6| ->]]; cbn [length]; lia.
  - intros u w c Hu Hw. apply nth_error_upd_inv in Hu as [(<- & E)|(Ne & Hu)]; [congruence|].
    apply nth_error_upd_inv in Hw as [(<- & E)|(Nw & Hw)]; [exfalso; eapply E7; eauto|eauto].
Qed.

Lemma inv_empty s ps f q : Inv (s, ps) (f, q) -> hd s = None -> q = [].
Proof. intros I H. destruct (i_path _ _ I) as (ns & P & _). cbn [fst snd] in P. rewrite H in P. apply path_none in P. tauto. Qed.
Lemma inv_item s ps f q : Inv (s, ps) (f, q) -> q <> [] -> exists n x, hd s = Some n /\ heap s n = Some x.
Proof.
  intros I H. destruct (i_path _ _ I) as (ns & P & _). cbn [fst snd] in P. destruct q as [|v q]; [congruence|]. destruct ns as [|n ns]; [contradiction|].
  cbn in P. destruct P as (E & nx & Hn & _). eauto.
Qed.
Lemma len0 q q' : Z.of_nat (length q') = Z.of_nat (length q) + 0 -> q = [] -> q' = [].
Proof. intros H ->. cbn in H. destruct q'; [auto|cbn in H; lia]. Qed.
Ltac kz := unfold zpr, zgr, zgc, zpc, number; cbn [filter is_putcall is_putret is_getcall is_getret length putpost gpost isget isput sigd]; lia.
Ltac kt K Ht := eapply k_step; [exact K|exact Ht|reflexivity|kz|kz|kz|kz|intros c0 [X|X]; try discriminate X| |intros c0 u X; try discriminate X|discriminate].
Lemma lock_excl s ps l t u p r : Inv (s, ps) l -> nth_error ps t = Some p -> holds p = true -> nth_error ps u = Some r -> holds r = true -> t = u.
Proof. intros I Ht H Hu G. apply (i_lock _ _ I t p Ht) in H. apply (i_lock _ _ I u r Hu) in G. cbn in *. congruence. Qed.
Lemma act_k s ps f q es t p p' s' ef e q' : Inv (s, ps) (f, q) -> KInv s ps q es -> nth_error ps t = Some p -> act t p s = Some (p', s', ef, e) ->
  Z.of_nat (length q') = Z.of_nat (length q) + zq p -> p <> PWake -> zpc es < W32 -> KInv s' (upd ps t p') q' (es ++ e).
Proof.
  intros I K Ht Ha Hq Nw B. destruct p; cbn [act] in Ha; try discriminate; try congruence; cbn [zq] in Hq; pose proof (i_ok _ _ I t _ Ht) as O; cbn [fst snd okp] in O.
  - (* PMk *) destruct (heap s a); [discriminate|]. injection Ha as <- <- <- <-. kt K Ht. left. cbn [awake doomed pend]. lia.
  - (* PLock *) unfold lockor in Ha. destruct (mtx s); injection Ha as <- <- <- <-; kt K Ht; left; cbn [awake doomed pend]; lia.
  - (* PChk *) injection Ha as <- <- <- <-. destruct (hd s); kt K Ht; left; cbn [awake doomed pend]; lia.
  - (* PHd *) injection Ha as <- <- <- <-. kt K Ht. left. cbn [awake doomed pend]. lia.
  - (* PNext *) injection Ha as <- <- <- <-. eapply k_step; [exact K|exact Ht| |kz|kz|kz|kz|intros c0 [X|X]; try discriminate X| |intros c0 u X; try discriminate X|discriminate].
    + destruct (tl s) as [b|]; [|reflexivity]. destruct (heap s b); reflexivity.
    + left. cbn [awake doomed pend]. lia.
  - (* PTl *) injection Ha as <- <- <- <-. kt K Ht. left. cbn [awake doomed pend]. lia.
  - (* PSig *) injection Ha as <- <- <- <-. destruct K as [K1 K2 K3 K4 K5 K6 K7]. rewrite app_nil_r.
    assert (Bs : seq s + 1 < W32).
    { pose proof (tot_upd sigd ps t PSig PWake Ht) as X. pose proof (sigd_le (upd ps t PWake)) as Y. rewrite X, (tot_upd isput ps t PSig PWake Ht) in Y. cbn in Y. lia. }
    assert (S0 : 0 <= seq s) by (rewrite K4; pose proof (tot_nonneg sigd ps sigd_nn); unfold zpr, number; lia).
    assert (Em : (seq s + 1) mod W32 = seq s + 1) by (apply Z.mod_small; lia).
    assert (Aw : tot (awake (seq s)) ps <= tot (awake (seq s + 1)) ps).
    { apply tot_le. intros i x Hx. destruct x; cbn; try lia; [assert (c <= seq s) by (eapply K5; eauto)|assert (c <= seq s) by (eapply K5; eauto)];
        destruct (Z.eqb_spec c (seq s)), (Z.eqb_spec c (seq s + 1)); lia. }
    assert (Dm : tot (doomed (seq s + 1)) ps <= tot (doomed (seq s)) ps).
    { apply tot_le. intros i x Hx. destruct x; cbn; try lia; [assert (c <= seq s) by (eapply K5; eauto)|assert (c <= seq s) by (eapply K5; eauto)];
        destruct (Z.eqb_spec c (seq s)), (Z.eqb_spec c (seq s + 1)); lia. }
    pose proof (tot_nonneg (doomed (seq s + 1)) ps (doomed_nn _)) as Dn.
    constructor; cbn [set_seq seq]; rewrite ?Em, ?(tot_upd _ ps t _ _ Ht); cbn [putpost gpost isget isput sigd awake doomed pend]; try lia.
    + intros u c Hu. assert (c <= seq s); [|lia]. destruct Hu as [Hu|Hu]; apply nth_error_upd_inv in Hu as [(<- & E)|(Ne & Hu)]; try discriminate; eauto.
    + intros u w c _ Hw. apply nth_error_upd_inv in Hw as [(<- & E)|(Ne & Hw)]; try discriminate. assert (c <= seq s) by eauto. lia.
  - (* PUnl *) injection Ha as <- <- <- <-. kt K Ht. left. cbn [awake doomed pend]. lia.
  - (* GLock *) unfold lockor in Ha. destruct (mtx s); injection Ha as <- <- <- <-; kt K Ht; left; cbn [awake doomed pend]; lia.
  - (* GChk *) injection Ha as <- <- <- <-. destruct (hd s) eqn:Eh; kt K Ht.
    + left. cbn [awake doomed pend]. lia.
    + right. right. eapply len0; eauto. eapply inv_empty; eauto.
  - (* CSeq *) injection Ha as <- <- <- <-. kt K Ht.
    + injection X as <-. lia.
    + right. right. eapply len0; eauto. eapply inv_empty; eauto. tauto.
  - (* CUnl *) injection Ha as <- <- <- <-. kt K Ht.
    + injection X as <-. eapply (k5 _ _ _ _ K); eauto.
    + left. cbn [awake doomed pend]. destruct (c =? seq s); lia.
    + intros Hu. assert (t = u) by (eapply lock_excl; [exact I|exact Ht|reflexivity|exact Hu|reflexivity]). congruence.
  - (* CWait *) injection Ha as <- <- <- <-. destruct (Z.eqb_spec (seq s) c) as [E|E]; kt K Ht; left; cbn [awake doomed pend]; destruct (Z.eqb_spec c (seq s)); lia.
  - (* CLock *) unfold lockor in Ha. destruct (mtx s); injection Ha as <- <- <- <-; kt K Ht; left; cbn [awake doomed pend]; lia.
  - (* GTake *) destruct (hd s) as [n|] eqn:Eh; [|intuition congruence]. injection Ha as <- <- <- <-. kt K Ht. left. cbn [awake doomed pend]. lia.
  - (* GNext *) injection Ha as <- <- <- <-. eapply k_step; [exact K|exact Ht| |kz|kz|kz|kz|intros c0 [X|X]; try discriminate X| |intros c0 u X; try discriminate X|discriminate].
    + destruct (hd s) as [b|]; [|reflexivity]. destruct (heap s b); reflexivity.
    + left. cbn [awake doomed pend]. lia.
  - (* GUnl *) injection Ha as <- <- <- <-. kt K Ht. left. cbn [awake doomed pend]. lia.
  - (* GRead *) destruct (heap s n) as [x|] eqn:En; [|destruct O as (v & nx & X & _); congruence]. injection Ha as <- <- <- <-. kt K Ht. left. cbn [awake doomed pend]. lia.
  - (* GFree *) injection Ha as <- <- <- <-. eapply k_step; [exact K|exact Ht| |kz|kz|kz|kz|intros c0 [X|X]; try discriminate X| |intros c0 u X; try discriminate X|discriminate].
    + destruct (heap s n); reflexivity.
    + left. cbn [awake doomed pend]. lia.
Qed.
Lemma calls_k dom adr s ps q es t p p' e : KInv s ps q es -> nth_error ps t = Some p -> In (p', e) (calls dom adr t p s) -> KInv s (upd ps t p') q (es ++ e).
Proof.
  intros K Ht Hc. destruct p; cbn in Hc; try contradiction. destruct Hc as [E|Hc].
  - injection E as <- <-. kt K Ht. left. cbn [awake doomed pend]. lia.
  - apply in_flat_map in Hc as (v & _ & Hc). apply in_map_iff in Hc as (a & E & _). injection E as <- <-. kt K Ht. left. cbn [awake doomed pend]. lia.
Qed.
Lemma wake_k s ps q es j : KInv s ps q es -> nth_error ps j = Some CSleep -> KInv s (upd ps j CLock) q es.
Proof. intros K Hj. rewrite <- (app_nil_r es). kt K Hj. left. cbn [awake doomed pend]. lia. Qed.
(* the signaller wakes one sleeper, or finds none *)
Lemma sig_k s ps f q es t : Inv (s, ps) (f, q) -> KInv s ps q es -> nth_error ps t = Some PWake ->
  (forall j, nth_error ps j = Some CSleep -> KInv s (upd (upd ps t PUnl) j CLock) q es) /\
  ((forall j, nth_error ps j <> Some CSleep) -> KInv s (upd ps t PUnl) q es).
Proof.
  intros I K Ht. split.
  - intros j Hj. assert (Ne : t <> j) by congruence. pose proof (wake_k _ _ _ _ _ K Hj) as K'.
    destruct K as [K1 K2 K3 K4 K5 K6 K7]. destruct K' as [L1 L2 L3 L4 L5 L6 L7].
    assert (Hj' : nth_error (upd ps t PUnl) j = Some CSleep) by (rewrite nth_error_upd_ne; auto).
    constructor; rewrite ?(tot_upd _ (upd ps t PUnl) j _ _ Hj'), ?(tot_upd _ ps t _ _ Ht); cbn [putpost gpost isget isput sigd awake doomed pend] in *; try lia.
    + intros u c Hu. destruct Hu as [Hu|Hu]; apply nth_error_upd_inv in Hu as [(<- & E)|(Nu & Hu)]; try discriminate; apply nth_error_upd_inv in Hu as [(<- & E)|(Nv & Hu)]; try discriminate; eauto.
    + pose proof (tot_nonneg (doomed (seq s)) (upd (upd ps t PUnl) j CLock) (doomed_nn _)) as Dn. rewrite (tot_upd _ (upd ps t PUnl) j _ _ Hj'), (tot_upd _ ps t _ _ Ht) in Dn. cbn in Dn. lia.
    + intros u w c Hu Hw. apply nth_error_upd_inv in Hw as [(<- & E)|(Nu & Hw)]; try discriminate; apply nth_error_upd_inv in Hw as [(<- & E)|(Nv & Hw)]; try discriminate. eauto.
  - intros Hn. assert (Z0 : tot (doomed (seq s)) ps = 0).
    { pose proof (tot_nonneg (doomed (seq s)) ps (doomed_nn _)). destruct (Z.eq_dec (tot (doomed (seq s)) ps) 0) as [E|E]; auto. exfalso.
      destruct (tot_ex (doomed (seq s)) ps) as (u & x & Hu & P); [lia|]. destruct x; cbn in P; try lia.
      - assert (t = u) by (eapply lock_excl; [exact I|exact Ht|reflexivity|exact Hu|reflexivity]). congruence.
      - destruct (Z.eqb_spec c (seq s)); [|lia]. eapply (k7 _ _ _ _ K); eauto.
      - eapply Hn; eauto. }
    destruct K as [K1 K2 K3 K4 K5 K6 K7].
    constructor; rewrite ?(tot_upd _ ps t _ _ Ht); cbn [putpost gpost isget isput sigd awake doomed pend] in *; try lia.
    + intros u c Hu. destruct Hu as [Hu|Hu]; apply nth_error_upd_inv in Hu as [(<- & E)|(Nu & Hu)]; try discriminate; eauto.
    + intros u w c Hu Hw. apply nth_error_upd_inv in Hw as [(<- & E)|(Nu & Hw)]; try discriminate. eauto.
Qed.

Lemma k_len s ps q q' es : length q = length q' -> KInv s ps q es -> KInv s ps q' es.
Proof. intros E [K1 K2 K3 K4 K5 K6 K7]. constructor; auto; rewrite <- E; auto. Qed.
Definition Full (c : queue V * list (pc V)) (l : (nat -> doing V) * list V) es : Prop := Inv c l /\ (zpc es < W32 -> KInv (fst c) (snd c) (snd l) es).
Lemma zpc_app es e : zpc (es ++ e) < W32 -> zpc es < W32.
Proof. unfold zpc. rewrite number_app. unfold number. lia. Qed.
Lemma step_full dom adr c l es e c' : Full c l es -> step (queues dom adr) c e c' -> exists h l', erase h = e /\ lrun l h l' /\ Full c' l' (es ++ e).
Proof.
  intros (I & K) H. destruct l as [f q]. destruct H as [s ps t p p' e Ht Hc|s ps t p p' s' e Ht Ha|s ps t p p' s' a e j r Ht Ha Hj Nj Hr|s ps t p p' s' a e Ht Ha Hn|s ps t p p' s' a e Ht Ha|s ps t p a Ht Ha];
    cbn [queues Conc.act Conc.calls Conc.woken fst snd] in *.
  - destruct (calls_inv _ _ _ _ _ _ _ _ _ _ I Ht Hc) as (h & l' & E & Eq & R & I'). exists h, l'. split; auto. split; auto. split; auto. intros B. cbn [fst snd]. rewrite Eq. eapply calls_k; eauto. apply K. eapply zpc_app; eauto.
  - destruct (act_inv _ _ _ _ _ _ _ _ _ _ I Ht Ha) as (h & l' & E & Eq & R & I'). exists h, l'. split; auto. split; auto. split; auto. intros B. cbn [fst snd].
    eapply act_k; eauto using zpc_app. destruct (act_eff _ _ _ _ _ _ _ Ha) as [X|X]; [tauto|intuition congruence].
  - destruct (act_eff _ _ _ _ _ _ _ Ha) as [(X & _)|(X & -> & -> & -> & ->)]; [discriminate|]. apply asleep_is in Hr. subst r.
    destruct (act_inv _ _ _ _ _ _ _ _ _ _ I Ht Ha) as (h & [f' q'] & E & Eq & R & I'). cbn [zq snd] in Eq. exists h, (f', q'). split; auto. split; auto. split.
    + apply inv_wake; auto. rewrite nth_error_upd_ne; auto.
    + intros B. rewrite app_nil_r in *. cbn [fst snd].
      apply (k_len _ _ q); [lia|]. eapply sig_k; eauto.
  - destruct (act_eff _ _ _ _ _ _ _ Ha) as [(X & _)|(X & -> & -> & -> & ->)]; [discriminate|]. injection X as ->.
    destruct (act_inv _ _ _ _ _ _ _ _ _ _ I Ht Ha) as (h & [f' q'] & E & Eq & R & I'). cbn [zq snd] in Eq. exists h, (f', q'). split; auto. split; auto. split; auto.
    intros B. rewrite app_nil_r in *. cbn [fst snd]. apply (k_len _ _ q); [lia|]. eapply sig_k; eauto.
    intros j Hj. assert (Nj : j <> t) by congruence. specialize (Hn j _ Hj Nj). discriminate.
  - destruct (act_eff _ _ _ _ _ _ _ Ha) as [(X & _)|(X & _)]; discriminate.
  - destruct p; try discriminate. exists [], (f, q). split; auto. split; [constructor|]. split; [apply inv_wake; auto|]. rewrite app_nil_r. intros B. apply wake_k; auto.
Qed.
Lemma run_full dom adr c es c' : run (queues dom adr) c es c' -> forall es0 l, Full c l es0 -> exists h l', erase h = es /\ lrun l h l' /\ Full c' l' (es0 ++ es).
Proof.
  intros R. induction R as [c|c e c1 es c2 H R IH]; intros es0 l F.
  - exists [], l. split; auto. split; [constructor|]. now rewrite app_nil_r.
  - destruct (step_full _ _ _ _ _ _ _ F H) as (h & l1 & <- & R1 & F1). destruct (IH _ _ F1) as (h2 & l2 & <- & R2 & F2). exists (h ++ h2), l2.
    rewrite erase_app, app_assoc. split; auto. split; auto. eapply lrun_app; eauto.
Qed.
Lemma start_full n : Full (start n) (fun _ => Quiet, []) [].
Proof.
  split; [apply start_inv|]. intros _. unfold start. cbn [fst snd]. constructor; rewrite ?tot_repeat by reflexivity; cbn; auto.
  - intros t c H. exfalso. destruct H as [H|H]; apply nth_error_repeat_inv in H; discriminate.
  - intros t u c H. apply nth_error_repeat_inv in H. discriminate.
Qed.

(* ---- somebody's get returns ---- *)
Definition can dom adr c : Prop := exists es c', irun (@queues V dom adr) c es c' /\ 0 < zgr es.
Lemma can_act dom adr s ps t p p' s' e : nth_error ps t = Some p -> act t p s = Some (p', s', NoEff, e) -> can dom adr (s', upd ps t p') -> can dom adr (s, ps).
Proof.
  intros Ht Ha (es & c' & R & G). exists (e ++ es), c'. split; [eapply irun_act; eauto|]. unfold zgr in *. rewrite number_app. unfold number in *. lia.
Qed.
Lemma can_free dom adr s ps t n v : nth_error ps t = Some (GFree n v) -> can dom adr (s, ps).
Proof.
  intros Ht. eexists _, _. split.
  - eapply irun_act; [exact Ht|reflexivity|constructor].
  - reflexivity.
Qed.
Lemma can_read dom adr s ps t n x : nth_error ps t = Some (GRead n) -> heap s n = Some x -> can dom adr (s, ps).
Proof.
  intros Ht Hn. eapply can_act; [exact Ht|cbn; rewrite Hn; reflexivity|]. eapply can_free. eapply nth_error_upd_same; eauto.
Qed.
Lemma can_unl dom adr s ps t n x : nth_error ps t = Some (GUnl n) -> heap s n = Some x -> can dom adr (s, ps).
Proof.
  intros Ht Hn. eapply can_act; [exact Ht|reflexivity|]. eapply can_read; [eapply nth_error_upd_same; eauto|exact Hn].
Qed.
Lemma can_chk dom adr s ps t n x : nth_error ps t = Some GChk -> hd s = Some n -> heap s n = Some x -> can dom adr (s, ps).
Proof.
  intros Ht Hh Hn. eapply can_act; [exact Ht|cbn; rewrite Hh; reflexivity|].
  eapply can_act; [eapply nth_error_upd_same; eauto|cbn; rewrite Hh; reflexivity|]. rewrite upd_upd.
  eapply can_act; [eapply nth_error_upd_same; eauto|cbn; rewrite Hh, Hn; reflexivity|]. rewrite upd_upd.
  eapply can_unl; [eapply nth_error_upd_same; eauto|exact Hn].
Qed.
Lemma can_lock dom adr s ps t n x : nth_error ps t = Some GLock \/ nth_error ps t = Some CLock -> mtx s = None -> hd s = Some n -> heap s n = Some x -> can dom adr (s, ps).
Proof.
  intros Ht Hm Hh Hn. destruct Ht as [Ht|Ht]; (eapply can_act; [exact Ht|cbn; unfold lockor; rewrite Hm; reflexivity|]; eapply can_chk; [eapply nth_error_upd_same; eauto|exact Hh|exact Hn]).
Qed.
Definition rank p : nat :=
  match p with PChk _ => 6 | PHd _ | PNext _ => 5 | PTl _ => 4 | PSig => 3 | PWake => 2 | PUnl => 1 | GChk => 4 | GTake => 3 | GNext _ => 2 | GUnl _ => 1 | CSeq => 2 | CUnl _ => 1 | _ => 0 end.
Definition rankc (c : queue V * list (pc V)) : nat := match mtx (fst c) with Some t => match nth_error (snd c) t with Some p => rank p | None => 0 end | None => 0 end.
Lemma sleeper_dec ps : {j | nth_error ps j = Some CSleep} + {forall j, nth_error ps j <> Some CSleep}.
Proof.
  induction ps as [|p ps IH]; [right; intros []; discriminate|]. destruct IH as [(j & Hj)|Hn]; [left; exists (S j); auto|].
  destruct p; try (right; intros [|j]; cbn; [discriminate|apply Hn]). left. exists 0%nat. reflexivity.
Defined.
Lemma hold_step dom adr s ps t p l : Inv (s, ps) l -> nth_error ps t = Some p -> holds p = true ->
  exists e c', istep (queues dom adr) (s, ps) e c' /\ (rankc c' < rankc (s, ps))%nat.
Proof.
  intros I Ht Hp. pose proof (proj1 (i_lock _ _ I t p Ht) Hp) as M. cbn [fst] in M.
  assert (Rk : rankc (s, ps) = rank p) by (unfold rankc; cbn [fst snd]; rewrite M, Ht; auto). rewrite Rk.
  assert (X : p = PWake \/ exists p' s' e, act t p s = Some (p', s', NoEff, e) /\ (mtx s' = None \/ mtx s' = Some t) /\ (mtx s' = Some t -> rank p' < rank p)%nat).
  { pose proof (i_ok _ _ I t p Ht) as O. cbn [fst] in O. destruct p; try discriminate Hp; auto; right; cbn [act okp] in *.
    all: try (destruct (hd s) eqn:?; [|intuition congruence]).
    all: try (eexists _, _, _; split; [reflexivity|]; cbn [set_hd set_tl set_seq set_mtx mtx]; split; [try (right; exact M); try (left; reflexivity)|intros _; cbn; lia]).
    - destruct (hd s); eexists _, _, _; (split; [reflexivity|]); (split; [right; exact M|intros _; cbn; lia]).
    - destruct (tl s) as [b|]; [destruct (heap s b)|]; right; exact M.
    - destruct (hd s); eexists _, _, _; (split; [reflexivity|]); (split; [right; exact M|intros _; cbn; lia]).
    - destruct (heap s n0); right; exact M. }
  destruct X as [->|(p' & s' & e & Ha & Hm & Hr)].
  - destruct (sleeper_dec ps) as [(j & Hj)|Hn].
    + assert (Ne : j <> t) by congruence. eexists _, _. split; [eapply (istep_wake _ s ps t PWake PUnl s 0 [] j CSleep); eauto|].
      unfold rankc. cbn [fst snd]. rewrite M, nth_error_upd_ne by auto. erewrite nth_error_upd_same by eauto. cbn. lia.
    + eexists _, _. split; [eapply (istep_wake_none _ s ps t PWake PUnl s 0 []); eauto|].
      * intros j r Hj _. destruct r; auto. exfalso. eapply Hn; eauto.
      * unfold rankc. cbn [fst snd]. rewrite M. erewrite nth_error_upd_same by eauto. cbn. lia.
  - eexists _, _. split; [eapply istep_act; eauto|]. unfold rankc. cbn [fst snd]. destruct Hm as [Hm|Hm]; rewrite Hm.
    + destruct p; try discriminate Hp; cbn; lia.
    + erewrite nth_error_upd_same by eauto. auto.
Qed.
Lemma live dom adr : forall k c l es, (rankc c < k)%nat -> Full c l es -> zpc es < W32 -> zgr es < zpr es -> zgr es < zgc es -> can dom adr c.
Proof.
  induction k as [|k IH]; intros [s ps] [f q] es Hk F B G1 G2; [lia|]. pose proof F as [I K]. specialize (K B). cbn [fst snd] in K.
  destruct (mtx s) as [t|] eqn:M.
  - destruct (no_lock _ _ _ _ I M) as (p & Ht & Hp). destruct (hold_step dom adr _ _ _ _ _ I Ht Hp) as (e & c' & H & Hr).
    destruct (step_full _ _ _ _ _ _ _ F (istep_step _ _ _ _ H)) as (h & l' & _ & _ & F').
    destruct (Z.eq_dec (zgr e) 0) as [E0|E0].
    + assert (Ec : zpc (es ++ e) = zpc es).
      { inversion H as [? ? ? ? ? ? ? ? Ha|? ? ? ? ? ? ? ? ? ? ? Ha|? ? ? ? ? ? ? ? ? Ha|? ? ? ? ? ? ? ? ? Ha]; subst; unfold zpc; rewrite number_app; enough (number is_putcall e = 0) by lia;
          clear - Ha; cbn [queues Conc.act] in Ha; match type of Ha with act _ ?p _ = _ => destruct p; cbn in Ha end; unfold lockor in Ha;
          repeat (match type of Ha with context [match ?x with _ => _ end] => destruct x end); try discriminate; injection Ha; intros; subst; reflexivity. }
      destruct (IH c' l' (es ++ e)) as (es' & c2 & R & Gr); auto; try lia.
      * unfold zgr, zpr in *. rewrite !number_app. unfold number in *. lia.
      * unfold zgr, zgc in *. rewrite !number_app. unfold number in *. lia.
      * exists (e ++ es'), c2. split; [econstructor; eauto|]. unfold zgr in *. rewrite number_app. lia.
    + exists (e ++ []), c'. split; [econstructor; [eauto|constructor]|]. rewrite app_nil_r. unfold zgr, number in *. lia.
  - assert (NH : forall u r, nth_error ps u = Some r -> holds r = false).
    { intros u r Hu. destruct (holds r) eqn:E; auto. apply (i_lock _ _ I u r Hu) in E. cbn in E. congruence. }
    destruct (Z.eq_dec (tot gpost ps) 0) as [E0|E0].
    + pose proof (tot_nonneg putpost ps putpost_nn) as Np. pose proof (k1 _ _ _ _ K) as K1.
      assert (Pp : tot putpost ps = 0).
      { destruct (Z.eq_dec (tot putpost ps) 0); auto. destruct (tot_ex putpost ps) as (u & r & Hu & P); [lia|]. specialize (NH u r Hu). destruct r; cbn in P, NH; try lia; discriminate. }
      destruct (inv_item _ _ _ _ I) as (n & x & Hh & Hn). { intros ->. cbn in K1. lia. }
      assert (Pe : tot pend ps = 0).
      { pose proof (tot_nonneg pend ps pend_nn). destruct (Z.eq_dec (tot pend ps) 0); auto. destruct (tot_ex pend ps) as (u & r & Hu & P); [lia|]. specialize (NH u r Hu). destruct r; cbn in P, NH; try lia; discriminate. }
      assert (A : exists u r, nth_error ps u = Some r /\ 0 < awake (seq s) r).
      { destruct (k6 _ _ _ _ K) as [K6|K6]; [apply tot_ex; lia|]. pose proof (k2 _ _ _ _ K) as K2. destruct (tot_ex isget ps) as (u & r & Hu & P); [lia|].
        exists u, r. split; auto. pose proof (tot_zero _ _ _ _ (doomed_nn _) K6 Hu) as D. pose proof (tot_zero _ _ _ _ gpost_nn E0 Hu) as Gp. specialize (NH u r Hu).
        destruct r; cbn in *; try lia; try discriminate. destruct (c =? seq s); lia. }
      destruct A as (u & r & Hu & P). specialize (NH u r Hu). destruct r; cbn in P, NH; try lia; try discriminate.
      * eapply can_lock; eauto.
      * eapply can_act; [exact Hu|reflexivity|]. destruct (Z.eqb_spec c (seq s)) as [->|N]; [lia|]. destruct (Z.eqb_spec (seq s) c); [congruence|].
        eapply can_lock; [right; eapply nth_error_upd_same; eauto|exact M|exact Hh|exact Hn].
      * eapply can_lock; eauto.
    + pose proof (tot_nonneg gpost ps gpost_nn). destruct (tot_ex gpost ps) as (u & r & Hu & P); [lia|]. pose proof (i_ok _ _ I u r Hu) as O. specialize (NH u r Hu). cbn [fst] in O.
      destruct r; cbn in P, NH, O; try lia; try discriminate.
      * destruct O as (v & nx & Hn & _). eapply can_read; eauto.
      * eapply can_free; eauto.
Qed.
End Live.
