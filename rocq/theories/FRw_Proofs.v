From Verif Require Import Base Conc Rw_Spec FRw_Model.
Open Scope Z_scope.

Lemma land_low nr wb : 0 <= nr < 2 ^ 31 -> Z.land (nr + wb * 2 ^ 31) Nrmask = nr.
Proof.
  intros N. change Nrmask with (Z.ones 31). rewrite Z.land_ones by lia. rewrite Z.mod_add by lia. apply Z.mod_small. lia.
Qed.
Lemma land_nr_bit nr : 0 <= nr < 2 ^ 31 -> Z.land nr Waitbit = 0.
Proof.
  intros N. apply Z.bits_inj'. intros k K. rewrite Z.land_spec, Z.bits_0. change Waitbit with (2 ^ 31). rewrite Z.pow2_bits_eqb by lia.
  destruct (Z.eqb_spec 31 k) as [<-|]; [|now rewrite andb_false_r]. rewrite andb_true_r.
  rewrite Z.testbit_odd, Z.shiftr_div_pow2 by lia. rewrite Z.div_small by lia. reflexivity.
Qed.
Lemma add_lor nr : 0 <= nr < 2 ^ 31 -> nr + 2 ^ 31 = Z.lor nr Waitbit.
Proof. intros N. pose proof (land_nr_bit nr N) as E. change (2 ^ 31) with Waitbit. rewrite Z.add_nocarry_lxor, Z.lxor_lor; auto. Qed.
Lemma land_hi nr wb : 0 <= nr < 2 ^ 31 -> wb = 0 \/ wb = 1 -> Z.land (nr + wb * 2 ^ 31) Waitbit = wb * 2 ^ 31.
Proof.
  intros N [-> | ->].
  - rewrite Z.mul_0_l, Z.add_0_r. now apply land_nr_bit.
  - rewrite Z.mul_1_l, (add_lor nr N), Z.land_lor_distr_l, (land_nr_bit nr N). reflexivity.
Qed.
Lemma lor_hi nr wb : 0 <= nr < 2 ^ 31 -> wb = 0 \/ wb = 1 -> Z.lor (nr + wb * 2 ^ 31) Waitbit = nr + 1 * 2 ^ 31.
Proof.
  intros N [-> | ->].
  - rewrite Z.mul_0_l, Z.add_0_r, Z.mul_1_l. symmetry. now apply add_lor.
  - rewrite Z.mul_1_l, (add_lor nr N), <- Z.lor_assoc, Z.lor_diag. reflexivity.
Qed.

Lemma inj4 {A B C D} (a a' : A) (b b' : B) (c c' : C) (d d' : D) : Some (a, b, c, d) = Some (a', b', c', d') -> a = a' /\ b = b' /\ c = c' /\ d = d'.
Proof. intros H. injection H as -> -> -> ->. auto. Qed.
Definition zb (b : bool) : Z := if b then 1 else 0.
Definition rin p := Z.of_nat (rd p) + match ph p with RSub => 1 | _ => 0 end.
Definition win p := wr p || match ph p with WGot _ | WUChk true | WUClr | WUXchg => true | _ => false end.
Definition own p := wr p || match ph p with WUChk true | WUClr => true | _ => false end.
Definition pend p := match ph p with RClr => true | RChk v => v =? Waitbit + 1 | _ => false end.
Definition okp p := match ph p with
  | RInc _ s => Z.land s Nrmask <> Nrmask /\ Z.land s Nrmask <> Nrmask - 1
  | RSet s => Z.land s Nrmask = Nrmask
  | WSet s => s <> 0
  | RChk v => Z.land v Nrmask <> 0
  | WGot _ | WUChk _ | WUClr | WUXchg => wr p = false
  | _ => True end.
Definition zw p := zb (win p).
Definition zp p := zb (pend p).
Definition zr p := Z.of_nat (rd p).
Definition rep (w R W : Z) : Prop := exists nr wb, w = nr + wb * 2 ^ 31 /\ (wb = 0 \/ wb = 1) /\
  (W = 0 /\ nr = R /\ 0 <= R <= Nrmask - 1 \/ W = 1 /\ R = 0 /\ nr = Nrmask).

Arguments rin !p /. Arguments win !p /. Arguments own !p /. Arguments pend !p /. Arguments zw !p /. Arguments zp !p /. Arguments zr !p /. Arguments okp !p /.
Ltac sim := cbn [rin zw zp zr win own pend okp rd wr ph word setw owner readers writer go orb zb fst snd].
Ltac simin H := cbn [rin zw zp zr win own pend okp rd wr ph word setw owner readers writer go orb zb fst snd] in H.
Record Inv (c : rw * list th) (h : held) : Prop := mkInv {
  i_rep : rep (word (fst c)) (tot rin (snd c)) (tot zw (snd c));
  i_own : forall t p, nth_error (snd c) t = Some p -> (own p = true <-> owner (fst c) = Some t);
  i_or : forall t, owner (fst c) = Some t -> (t < length (snd c))%nat;
  i_wr : forall t p, nth_error (snd c) t = Some p -> (wr p = true <-> writer h = Some t);
  i_hr : forall t, writer h = Some t -> (t < length (snd c))%nat;
  i_rd : Z.of_nat (readers h) = tot zr (snd c);
  i_ok : forall t p, nth_error (snd c) t = Some p -> okp p;
  i_pend : word (fst c) = Waitbit -> 0 < tot zp (snd c) }.

Lemma zb_nn b : 0 <= zb b. Proof. destruct b; cbn; lia. Qed.
Lemma rin_nn p : 0 <= rin p. Proof. unfold rin. destruct (ph p); lia. Qed.
Lemma zw_nn p : 0 <= zw p. Proof. apply zb_nn. Qed.
Lemma zp_nn p : 0 <= zp p. Proof. apply zb_nn. Qed.
Lemma zr_nn p : 0 <= zr p. Proof. unfold zr. lia. Qed.

Lemma inv_upd s ps h t p p' s' h' : Inv (s, ps) h -> nth_error ps t = Some p ->
  rep (word s') (tot rin ps - rin p + rin p') (tot zw ps - zw p + zw p') ->
  (owner s' = if own p' then Some t else if own p then None else owner s) -> (own p' = true -> own p = true \/ owner s = None) ->
  (writer h' = if wr p' then Some t else if wr p then None else writer h) -> (wr p' = true -> wr p = true \/ writer h = None) ->
  Z.of_nat (readers h') = Z.of_nat (readers h) - zr p + zr p' -> okp p' ->
  (word s' = Waitbit -> 0 < tot zp ps - zp p + zp p') ->
  Inv (s', upd ps t p') h'.
Proof.
  intros I Ht Rp O1 O2 H1 H2 R K P. destruct I. cbn [fst snd] in *.
  assert (L : (t < length ps)%nat) by (apply nth_error_Some; congruence).
  assert (Gen : forall (f : th -> bool) (o o' : option nat), (forall u q, nth_error ps u = Some q -> (f q = true <-> o = Some u)) ->
    (o' = if f p' then Some t else if f p then None else o) -> (f p' = true -> f p = true \/ o = None) ->
    forall u q, nth_error (upd ps t p') u = Some q -> (f q = true <-> o' = Some u)).
  { intros f o o' F E N u q Hu. pose proof (F t p Ht) as V. apply nth_error_upd_inv in Hu as [(Eu & ->)|(Ne & Hu)].
    - subst u. rewrite E. destruct (f p'); [tauto|]. destruct (f p) eqn:Ep; [split; discriminate|]. rewrite <- V. split; congruence.
    - pose proof (F u q Hu) as U. rewrite U, E. destruct (f p').
      + destruct (N eq_refl) as [G| ->]; [|split; congruence]. apply V in G. rewrite G. split; congruence.
      + destruct (f p); [|tauto]. rewrite (proj1 V eq_refl). split; congruence. }
  constructor; cbn [fst snd]; rewrite ?(tot_upd _ ps t p p' Ht), ?upd_length; auto.
  - apply (Gen own _ _ i_own0 O1 O2).
  - intros u Hu. rewrite O1 in Hu. destruct (own p'); [injection Hu as <-; auto|]. destruct (own p); [discriminate|]. auto.
  - apply (Gen wr _ _ i_wr0 H1 H2).
  - intros u Hu. rewrite H1 in Hu. destruct (wr p'); [injection Hu as <-; auto|]. destruct (wr p); [discriminate|]. auto.
  - rewrite R, i_rd0. lia.
  - intros u q Hu. apply nth_error_upd_inv in Hu as [(Eu & ->)|(Ne & Hu)]; eauto.
Qed.

Lemma owned_by_spec s t : owned_by s t = true <-> owner s = Some t.
Proof. unfold owned_by. destruct (owner s) as [u|]; [|split; discriminate]. destruct (Nat.eqb_spec u t); subst; split; congruence. Qed.
Lemma wr_own p : wr p = true -> own p = true.
Proof. unfold own. intros ->. reflexivity. Qed.
Lemma own_win p : own p = true -> win p = true.
Proof. unfold own, win. destruct (wr p); auto. destruct (ph p) as [| | | | | | | | | | | | | | | | |[]| | |]; auto. Qed.
Lemma nw_none s ps h : Inv (s, ps) h -> tot zw ps = 0 -> owner s = None /\ writer h = None.
Proof.
  intros I Z.
  assert (K : forall t p, nth_error ps t = Some p -> win p = false).
  { intros t p Hp. pose proof (tot_zero zw ps t p zw_nn Z Hp) as E. unfold zw, zb in E. destruct (win p); congruence. }
  split.
  - destruct (owner s) as [u|] eqn:E; auto. exfalso. pose proof (i_or _ _ I u E) as L. cbn [snd] in L. destruct (nth_error ps u) as [q|] eqn:Q; [|apply nth_error_None in Q; lia].
    pose proof (proj2 (i_own _ _ I u q Q) E) as G. apply own_win in G. rewrite (K _ _ Q) in G. discriminate.
  - destruct (writer h) as [u|] eqn:E; auto. exfalso. pose proof (i_hr _ _ I u E) as L. cbn [snd] in L. destruct (nth_error ps u) as [q|] eqn:Q; [|apply nth_error_None in Q; lia].
    pose proof (proj2 (i_wr _ _ I u q Q) E) as G. apply wr_own, own_win in G. rewrite (K _ _ Q) in G. discriminate.
Qed.
(* a thread inside as a writer without its caller holding yet: nobody else is *)
Lemma w_none s ps h t p : Inv (s, ps) h -> nth_error ps t = Some p -> win p = true -> own p = false -> owner s = None /\ writer h = None.
Proof.
  intros I Ht W O.
  assert (K : forall u q, nth_error ps u = Some q -> win q = true -> u = t).
  { intros u q Hq Wq. destruct (Nat.eq_dec u t); auto. pose proof (tot_two zw ps u q t p zw_nn Hq Ht n) as T. unfold zw at 1 2 in T. rewrite Wq, W in T. cbn [zb] in T.
    destruct (i_rep _ _ I) as (nr & wb & _ & _ & [(A & _)|(A & _)]); cbn [snd] in A; lia. }
  split.
  - destruct (owner s) as [u|] eqn:E; auto. exfalso. pose proof (i_or _ _ I u E) as L. cbn [snd] in L. destruct (nth_error ps u) as [q|] eqn:Q; [|apply nth_error_None in Q; lia].
    pose proof (proj2 (i_own _ _ I u q Q) E) as G. pose proof (K u q Q (own_win _ G)). subst u. congruence.
  - destruct (writer h) as [u|] eqn:E; auto. exfalso. pose proof (i_hr _ _ I u E) as L. cbn [snd] in L. destruct (nth_error ps u) as [q|] eqn:Q; [|apply nth_error_None in Q; lia].
    pose proof (proj2 (i_wr _ _ I u q Q) E) as G. apply wr_own in G. pose proof (K u q Q (own_win _ G)). subst u. congruence.
Qed.

Definition DInv c h := dead (fst c) = true \/ Inv c h.
Lemma rd0 ps : tot rin ps = 0 -> tot zr ps = 0.
Proof.
  intros H. pose proof (tot_nonneg zr ps zr_nn). destruct (Z.eq_dec (tot zr ps) 0); auto. destruct (tot_ex zr ps) as (i & x & Hx & Px); [lia|].
  pose proof (tot_zero rin ps i x rin_nn H Hx) as E. unfold rin, zr in *. destruct (ph x); lia.
Qed.
(* a step that leaves the lock itself alone *)
Lemma quiet s ps h t p f : Inv (s, ps) h -> nth_error ps t = Some p -> rin (go p f) = rin p -> win (go p f) = win p -> own (go p f) = own p ->
  okp (go p f) -> (pend p = true -> pend (go p f) = true \/ word s <> Waitbit) -> Inv (s, upd ps t (go p f)) h.
Proof.
  intros I Ht A B C O P. refine (inv_upd _ _ _ _ _ _ _ _ I Ht _ _ _ _ _ _ O _).
  - rewrite A. unfold zw. rewrite B. replace (tot rin ps - rin p + rin p) with (tot rin ps) by lia. replace (tot (fun p0 => zb (win p0)) ps - zb (win p) + zb (win p)) with (tot zw ps) by (unfold zw; lia). exact (i_rep _ _ I).
  - rewrite C. destruct (own p) eqn:E; auto. now apply (i_own _ _ I t p Ht).
  - rewrite C. auto.
  - cbn [go wr]. destruct (wr p) eqn:E; auto. now apply (i_wr _ _ I t p Ht).
  - cbn [go wr]. auto.
  - unfold zr. cbn [go rd]. lia.
  - intros E. pose proof (i_pend _ _ I E) as G. cbn [snd] in G. unfold zp at 2 3. destruct (pend p); cbn [zb]; [|pose proof (zb_nn (pend (go p f))); lia].
    destruct (P eq_refl) as [-> |]; [cbn [zb]; lia|contradiction].
Qed.

Ltac qt QT := apply QT; first [assumption | reflexivity | exact Logic.I | (cbn; auto; fail) | discriminate | idtac].
Lemma act_inv timed s ps h t p p' s' f e : Inv (s, ps) h -> nth_error ps t = Some p -> act timed t p s = Some (p', s', f, e) -> dead s = false ->
  exclusive h e /\ DInv (s', upd ps t p') (after h e).
Proof.
  intros I Ht Ha D. pose proof (i_rep _ _ I) as Rp. cbn [fst snd] in Rp. pose proof (i_ok _ _ I t p Ht) as O.
  assert (Q : forall q, go p (ph p) = q -> q = p) by (intros; subst; destruct p; reflexivity).
  pose proof (quiet s ps h t p) as QT. pose proof (tot_ge rin ps t p rin_nn Ht) as Gr. pose proof (tot_ge zw ps t p zw_nn Ht) as Gw.
  pose proof (tot_nonneg rin ps rin_nn) as Nr. pose proof (tot_nonneg zp ps zp_nn) as Np. pose proof (tot_ge zp ps t p zp_nn Ht) as Gp.
  unfold act in Ha. rewrite D in Ha. destruct p as [r w fz]. cbn [ph] in Ha. destruct fz; cbn [go rd wr] in *.
  - discriminate.
  - (* RGet *)
    cbv zeta in Ha. destruct (Z.eqb_spec (Z.land (word s) Nrmask) (Nrmask - 1)); [apply inj4 in Ha as (<- & <- & <- & <-); split; [exact Logic.I|left; reflexivity]|].
    destruct (Z.eqb_spec (Z.land (word s) Nrmask) Nrmask); [destruct try|]; apply inj4 in Ha as (<- & <- & <- & <-); (split; [cbn; auto|right]); cbn [after fold_left after1];
      qt QT.
  - (* RInc *)
    destruct (Z.eqb_spec (word s) s0) as [E|E]; apply inj4 in Ha as (<- & <- & <- & <-).
    2: { split; [exact Logic.I|right]. qt QT. }
    unfold okp in O. cbn [ph] in O. destruct Rp as (nr & wb & W1 & W2 & W3). rewrite <- E, W1 in O.
    destruct W3 as [(A & B & C)|(A & B & C)]; [|rewrite C, (land_low Nrmask wb) in O by (unfold Nrmask; lia); tauto].
    rewrite land_low in O by (unfold Nrmask in *; lia).
    destruct (nw_none _ _ _ I A) as [NO NW].
    assert (Ev : exclusive h [if try then RdTry t true else RdRet t] /\ after h [if try then RdTry t true else RdRet t] = mkheld (S (readers h)) (writer h)) by (destruct try; cbn; auto).
    destruct Ev as [Ev ->]. split; auto. right.
    assert (E2 : (s0 + 1) mod 2 ^ 32 = nr + 1 + wb * 2 ^ 31) by (rewrite <- E, W1, Z.mod_small; unfold Nrmask in *; lia). rewrite E2.
    refine (inv_upd _ _ _ _ _ _ _ _ I Ht _ _ _ _ _ _ _ _); sim; auto.
    + exists (nr + 1), wb. split; [reflexivity|]. split; auto. left. simin Gr; simin Gw. unfold Nrmask in *; repeat split; lia.
    + destruct w; auto. cbn. now apply (i_own _ _ I t _ Ht).
    + destruct w; auto. now apply (i_wr _ _ I t _ Ht).
    + lia.
    + intros X. exfalso. unfold Waitbit, Nrmask in *. lia.
  - (* RSet *)
    destruct (Z.eqb_spec (word s) s0) as [E|E]; apply inj4 in Ha as (<- & <- & <- & <-); (split; [exact Logic.I|right]); [|qt QT].
    unfold okp in O. cbn [ph] in O. destruct Rp as (nr & wb & W1 & W2 & W3). rewrite <- E, W1 in O.
    destruct W3 as [(A & B & C)|(A & B & C)]; [rewrite land_low in O by (unfold Nrmask in *; lia); unfold Nrmask in *; lia|].
    cbn [after fold_left]. refine (inv_upd _ _ _ _ _ _ _ _ I Ht _ _ _ _ _ _ _ _); sim; auto; try lia.
    + exists Nrmask, 1. split; [reflexivity|]. split; auto. right. simin Gr; simin Gw. repeat split; lia.
    + destruct w; auto. cbn. now apply (i_own _ _ I t _ Ht).
    + destruct w; auto. now apply (i_wr _ _ I t _ Ht).
    + discriminate.
  - apply inj4 in Ha as (<- & <- & <- & <-). split; [exact Logic.I|right]. destruct (_ =? _); qt QT.
  - destruct timed; [|discriminate]. apply inj4 in Ha as (<- & <- & <- & <-). split; [exact Logic.I|right]. qt QT.
  - destruct (owned_by s t); apply inj4 in Ha as (<- & <- & <- & <-); (split; [exact Logic.I|]); [left; reflexivity|right]. qt QT.
  - (* WCas *)
    destruct (Z.eqb_spec (word s) 0) as [E|E]; apply inj4 in Ha as (<- & <- & <- & <-); (split; [exact Logic.I|right]); [|qt QT].
    destruct Rp as (nr & wb & W1 & W2 & W3). rewrite E in W1.
    destruct W3 as [(A & B & C)|(A & B & C)]; [|unfold Nrmask in *; lia].
    assert (w = false). { destruct w; auto. exfalso. simin Gw. lia. } subst w.
    cbn [after fold_left]. refine (inv_upd _ _ _ _ _ _ _ _ I Ht _ _ _ _ _ _ _ _); sim; auto; try lia; try discriminate.
    exists Nrmask, 0. split; [reflexivity|]. split; auto. right. cbn [orb zb]. simin Gr; simin Gw. repeat split; try lia. 
  - (* WSet *)
    destruct (Z.eqb_spec (word s) s0) as [E|E]; apply inj4 in Ha as (<- & <- & <- & <-); (split; [exact Logic.I|right]); [|qt QT].
    unfold okp in O. cbn [ph] in O. destruct Rp as (nr & wb & W1 & W2 & W3).
    assert (N : 0 <= nr < 2 ^ 31) by (unfold Nrmask in *; lia). subst s0. pose proof (lor_hi nr wb N W2) as L. rewrite <- W1 in L. rewrite L.
    cbn [after fold_left]. refine (inv_upd _ _ _ _ _ _ _ _ I Ht _ _ _ _ _ _ _ _); sim; auto; try lia.
    + exists nr, 1. split; [reflexivity|]. split; auto. simin Gr; simin Gw. destruct W3 as [(A & B & C)|(A & B & C)]; [left|right]; repeat split; lia.
    + destruct w; auto. cbn. now apply (i_own _ _ I t _ Ht).
    + destruct w; auto. now apply (i_wr _ _ I t _ Ht).
    + intros X. assert (nr = 0) by (unfold Waitbit in X; lia). assert (word s = Waitbit) as Y by (unfold Waitbit; destruct W2; subst; lia).
      pose proof (i_pend _ _ I Y) as G. cbn [snd] in G. lia.
  - apply inj4 in Ha as (<- & <- & <- & <-). split; [exact Logic.I|right]. destruct (_ =? _); qt QT.
  - destruct timed; [|discriminate]. apply inj4 in Ha as (<- & <- & <- & <-). split; [exact Logic.I|right]. qt QT.
  - (* WTry *)
    destruct (Z.eqb_spec (word s) 0) as [E|E]; apply inj4 in Ha as (<- & <- & <- & <-); (split; [cbn; auto|right]); [|qt QT].
    destruct Rp as (nr & wb & W1 & W2 & W3). rewrite E in W1.
    destruct W3 as [(A & B & C)|(A & B & C)]; [|unfold Nrmask in *; lia].
    assert (w = false). { destruct w; auto. exfalso. simin Gw. lia. } subst w.
    cbn [after fold_left]. refine (inv_upd _ _ _ _ _ _ _ _ I Ht _ _ _ _ _ _ _ _); sim; auto; try lia; try discriminate.
    exists Nrmask, 0. split; [reflexivity|]. split; auto. right. cbn [orb zb]. simin Gr; simin Gw. repeat split; try lia. 
  - (* WGot *)
    apply inj4 in Ha as (<- & <- & <- & <-). cbn in O. subst w.
    assert (Wn : tot zw ps = 1 /\ tot rin ps = 0).
    { destruct Rp as (nr & wb & W1 & W2 & W3). simin Gw. destruct W3 as [(A & B & C)|(A & B & C)]; lia. }
    destruct Wn as [Wn Wr].
    destruct (w_none _ _ _ _ _ I Ht) as [NO NW]; [reflexivity|reflexivity|].
    assert (R0 : readers h = 0%nat) by (pose proof (i_rd _ _ I) as X; cbn [snd] in X; rewrite (rd0 _ Wr) in X; lia).
    assert (Hn : h = nobody) by (destruct h; cbn in *; subst; reflexivity).
    assert (Ev : exclusive h [if try then WrTry t true else WrRet t] /\ after h [if try then WrTry t true else WrRet t] = mkheld (readers h) (Some t)) by (destruct try; cbn; auto).
    destruct Ev as [Ev ->]. split; auto. right.
    refine (inv_upd _ _ _ _ _ _ _ _ I Ht _ _ _ _ _ _ _ _); sim; auto; try lia.
    + match goal with |- rep _ ?a ?b => replace a with (tot rin ps) by lia; replace b with (tot zw ps) by lia end. exact Rp.
    + intros X. pose proof (i_pend _ _ I X) as G. cbn [snd] in G. lia.
  - (* RSub *)
    apply inj4 in Ha as (<- & <- & <- & <-). split; [exact Logic.I|right]. destruct Rp as (nr & wb & W1 & W2 & W3).
    simin Gr. destruct W3 as [(A & B & C)|(A & B & C)]; [|lia].
    assert (E2 : (word s - 1) mod 2 ^ 32 = nr - 1 + wb * 2 ^ 31) by (rewrite W1, Z.mod_small; unfold Nrmask in *; lia). rewrite E2.
    cbn [after fold_left]. refine (inv_upd _ _ _ _ _ _ _ _ I Ht _ _ _ _ _ _ _ _); sim; auto; try lia.
    + exists (nr - 1), wb. split; [reflexivity|]. split; auto. left. simin Gr; simin Gw. repeat split; try lia.
    + destruct w; auto. cbn. now apply (i_own _ _ I t _ Ht).
    + destruct w; auto. now apply (i_wr _ _ I t _ Ht).
    + cbn. rewrite W1, land_low by (unfold Nrmask in *; lia). lia.
    + intros X. assert (word s = Waitbit + 1) as Y by (unfold Waitbit, Nrmask in *; lia). rewrite Y, Z.eqb_refl. cbn [zb]. simin Gp. lia.
  - (* RChk *)
    unfold okp in O. cbn [ph] in O. destruct (Z.eqb_spec (Z.land prev Nrmask) 0); [contradiction|]. apply inj4 in Ha as (<- & <- & <- & <-). split; [exact Logic.I|right].
    destruct ((Z.land prev Nrmask =? 1) && negb (Z.land prev Waitbit =? 0)) eqn:C; qt QT.
    unfold pend. cbn [ph]. intros X. apply Z.eqb_eq in X. subst prev. discriminate C.
  - (* RClr *)
    destruct (Z.eqb_spec (word s) Waitbit) as [E|E]; apply inj4 in Ha as (<- & <- & <- & <-); (split; [exact Logic.I|right]); [|qt QT].
    destruct Rp as (nr & wb & W1 & W2 & W3). assert (nr = 0) by (unfold Waitbit, Nrmask in *; lia).
    destruct W3 as [(A & B & C)|(A & B & C)]; [|unfold Nrmask in *; lia].
    cbn [after fold_left]. refine (inv_upd _ _ _ _ _ _ _ _ I Ht _ _ _ _ _ _ _ _); sim; auto; try lia; try discriminate.
    + exists 0, 0. split; [reflexivity|]. split; auto. left. simin Gr; simin Gw. unfold Nrmask in *; repeat split; lia.
    + destruct w; auto. cbn. now apply (i_own _ _ I t _ Ht).
    + destruct w; auto. now apply (i_wr _ _ I t _ Ht).
  - apply inj4 in Ha as (<- & <- & <- & <-). split; [exact Logic.I|right]. qt QT.
  - (* WUChk *)
    destruct (owned_by s t) eqn:E; apply inj4 in Ha as (<- & <- & <- & <-); (split; [exact Logic.I|]); [right|left; reflexivity].
    apply owned_by_spec in E. apply (i_own _ _ I t _ Ht) in E. unfold own in E. cbn [wr ph] in E. cbn in O. subst w.
    qt QT; unfold win, own; cbn [go wr ph]; destruct held; auto; discriminate.
  - (* WUClr *)
    apply inj4 in Ha as (<- & <- & <- & <-). split; [exact Logic.I|right].
    cbn in O. subst w.
    cbn [after fold_left]. refine (inv_upd _ _ _ _ _ _ _ _ I Ht _ _ _ _ _ _ _ _); sim; auto; try lia; try discriminate.
    + match goal with |- rep _ ?a ?b => replace a with (tot rin ps) by lia; replace b with (tot zw ps) by lia end. exact Rp.
    + intros X. pose proof (i_pend _ _ I X) as G. cbn [snd] in G. lia.
  - (* WUXchg *)
    apply inj4 in Ha as (<- & <- & <- & <-). split; [exact Logic.I|right].
    cbn in O. subst w.
    assert (Wn : tot zw ps = 1 /\ tot rin ps = 0).
    { destruct Rp as (nr & wb & W1 & W2 & W3). simin Gw. destruct W3 as [(A & B & C)|(A & B & C)]; lia. }
    destruct Wn as [Wn Wr].
    cbn [after fold_left]. destruct (_ =? _); (refine (inv_upd _ _ _ _ _ _ _ _ I Ht _ _ _ _ _ _ _ _); sim; auto; try lia; try discriminate;
     exists 0, 0; split; [reflexivity|]; split; auto; left; simin Gr; simin Gw; unfold Nrmask in *; repeat split; lia).
  - apply inj4 in Ha as (<- & <- & <- & <-). split; [exact Logic.I|right]. qt QT.
Qed.

Lemma start_inv n : Inv (start n) nobody.
Proof.
  unfold start. constructor; cbn [fst snd mkrwlock word owner writer readers nobody]; rewrite ?tot_repeat by reflexivity; try discriminate; auto.
  - exists 0, 0. repeat split; auto. left. unfold Nrmask. lia.
  - intros t p H. apply nth_error_repeat_inv in H. subst. cbn. split; discriminate.
  - intros t p H. apply nth_error_repeat_inv in H. subst. cbn. split; discriminate.
  - intros t p H. apply nth_error_repeat_inv in H. subst. exact I.
Qed.
Lemma calls_inv s ps h t p p' e : Inv (s, ps) h -> nth_error ps t = Some p -> In (p', e) (calls t p s) -> exclusive h e /\ Inv (s, upd ps t p') (after h e).
Proof.
  intros I Ht Hc. pose proof (quiet s ps h t p) as QT. unfold calls in Hc. destruct (dead s); [contradiction|]. destruct p as [r w f]. cbn [ph] in Hc. destruct f; try contradiction.
  pose proof (i_rep _ _ I) as Rp. cbn [fst snd] in Rp. pose proof (tot_ge zr ps t _ zr_nn Ht) as Gz. pose proof (i_rd _ _ I) as Rd. simin Gz. cbn [snd] in Rd.
  pose proof (tot_ge zp ps t _ zp_nn Ht) as Gp. simin Gp. pose proof (i_pend _ _ I) as Pd. cbn [fst snd] in Pd.
  cbn [rd wr] in Hc. apply in_app_or in Hc as [[X|[X|[X|[X|[X|[]]]]]]|Hc]; try (injection X as <- <-; split; [exact Logic.I|]; qt QT).
  - injection X as <- <-. split; [exact (conj Logic.I Logic.I)|]. cbn [after fold_left after1].
    pose proof (i_wr _ _ I t _ Ht) as Wt. cbn [wr] in Wt.
    refine (inv_upd _ _ _ _ _ _ _ _ I Ht _ _ _ _ _ _ _ _); sim; auto; try lia; try discriminate.
    + match goal with |- rep _ ?a ?b => replace a with (tot rin ps) by lia; replace b with (tot zw ps) by (destruct w; cbn [orb zb]; lia) end. exact Rp.
    + destruct w; cbn [orb]; auto. now apply (i_own _ _ I t _ Ht).
    + destruct w; [rewrite (proj1 Wt eq_refl), Nat.eqb_refl; reflexivity|]. destruct (writer h) as [u|]; auto. destruct (Nat.eqb_spec u t); auto. subst u. destruct Wt as [_ Wt]. discriminate (Wt eq_refl).
  - destruct r as [|r]; [contradiction|]. destruct Hc as [X|[]]. injection X as <- <-. split; [exact (conj Logic.I Logic.I)|]. cbn [after fold_left after1].
    refine (inv_upd _ _ _ _ _ _ _ _ I Ht _ _ _ _ _ _ _ _); sim; auto; try lia; try discriminate.
    + match goal with |- rep _ ?a ?b => replace a with (tot rin ps) by lia; replace b with (tot zw ps) by lia end. exact Rp.
    + destruct w; cbn [orb]; auto. now apply (i_own _ _ I t _ Ht).
    + destruct w; auto. now apply (i_wr _ _ I t _ Ht).
Qed.
Definition wk (timed : bool) p := woken (frw timed) p.
Lemma wk_quiet timed s ps h t p : Inv (s, ps) h -> nth_error ps t = Some p -> Inv (s, upd ps t (wk timed p)) h.
Proof.
  intros I Ht. pose proof (quiet s ps h t p) as QT. pose proof (i_ok _ _ I t p Ht) as O. destruct p as [r w f].
  destruct f; cbn [wk woken frw ph]; try (qt QT); change (mkth r w ?f) with (go (mkth r w f) f).
  all: match goal with |- Inv (_, upd _ _ (mkth ?r ?w ?f)) _ => change (mkth r w f) with (go (mkth r w f) f) end; qt QT; auto.
Qed.
Lemma wk_keep timed p : rin (wk timed p) = rin p /\ zw (wk timed p) = zw p /\ own (wk timed p) = own p /\ wr (wk timed p) = wr p /\ zr (wk timed p) = zr p /\ zp (wk timed p) = zp p /\ (okp p -> okp (wk timed p)).
Proof. destruct p as [r w f]. destruct f; cbn; auto 10. Qed.
Lemma all_quiet timed a s ps h : Inv (s, ps) h -> Inv (s, wake_all (frw timed) a ps) h.
Proof.
  intros I. set (g := fun p => if sleeps_on (frw timed) a p then woken (frw timed) p else p).
  assert (G : forall p, rin (g p) = rin p /\ zw (g p) = zw p /\ own (g p) = own p /\ wr (g p) = wr p /\ zr (g p) = zr p /\ zp (g p) = zp p /\ (okp p -> okp (g p))).
  { intros p. unfold g. destruct (sleeps_on _ a p); [exact (wk_keep timed p)|auto 10]. }
  change (wake_all (frw timed) a ps) with (map g ps). destruct I. cbn [fst snd] in *.
  assert (NE : forall t q, nth_error (map g ps) t = Some q -> exists p, nth_error ps t = Some p /\ q = g p).
  { intros t q H. rewrite nth_error_map in H. destruct (nth_error ps t) as [p|] eqn:E; [|discriminate]. exists p. split; auto. cbn in H. congruence. }
  constructor; cbn [fst snd]; rewrite ?map_length; auto.
  - rewrite !tot_map; auto; intros p; apply G.
  - intros t q H. apply NE in H as (p & Hp & ->). replace (own (g p)) with (own p) by (symmetry; apply G). auto.
  - intros t q H. apply NE in H as (p & Hp & ->). replace (wr (g p)) with (wr p) by (symmetry; apply G). auto.
  - rewrite tot_map; auto. intros p; apply G.
  - intros t q H. apply NE in H as (p & Hp & ->). apply G. eauto.
  - rewrite tot_map; auto. intros p; apply G.
Qed.
Lemma dead_act timed t p s r : act timed t p s = Some r -> dead s = false.
Proof. unfold act. destruct (dead s); [discriminate|auto]. Qed.
Lemma step_inv timed c h e c' : DInv c h -> step (frw timed) c e c' -> exclusive h e /\ DInv c' (after h e).
Proof.
  intros DI H. destruct H as [s ps t p p' e Ht Hc|s ps t p p' s' e Ht Ha|s ps t p p' s' a e j q Ht Ha Hj Nj Hq|s ps t p p' s' a e Ht Ha Hn|s ps t p p' s' a e Ht Ha|s ps t p a Ht Ha];
    cbn [frw Conc.act Conc.calls] in *.
  - destruct DI as [X|I]; [cbn in X; unfold calls in Hc; rewrite X in Hc; contradiction|]. destruct (calls_inv _ _ _ _ _ _ _ I Ht Hc). split; auto. right; auto.
  - pose proof (dead_act _ _ _ _ _ Ha) as D. destruct DI as [X|I]; [cbn in X; congruence|]. eapply act_inv; eauto.
  - pose proof (dead_act _ _ _ _ _ Ha) as D. destruct DI as [X|I]; [cbn in X; congruence|]. destruct (act_inv _ _ _ _ _ _ _ _ _ _ I Ht Ha D) as [A [B|B]]; split; auto; [left; exact B|right].
    apply (wk_quiet timed s' (upd ps t p') _ j q); auto. rewrite nth_error_upd_ne; auto.
  - pose proof (dead_act _ _ _ _ _ Ha) as D. destruct DI as [X|I]; [cbn in X; congruence|]. eapply act_inv; eauto.
  - pose proof (dead_act _ _ _ _ _ Ha) as D. destruct DI as [X|I]; [cbn in X; congruence|]. destruct (act_inv _ _ _ _ _ _ _ _ _ _ I Ht Ha D) as [A [B|B]]; split; auto; [left; exact B|right].
    now apply all_quiet.
  - split; [exact Logic.I|]. destruct DI as [X|I]; [left; exact X|right]. cbn [after fold_left]. now apply (wk_quiet timed).
Qed.
Lemma exclusive_app : forall a b h, exclusive h (a ++ b) <-> exclusive h a /\ exclusive (after h a) b.
Proof. induction a as [|e a IH]; intros b h; cbn [app exclusive after fold_left]; [tauto|]. rewrite IH. unfold after. tauto. Qed.
Lemma run_inv_ timed c es c' : run (frw timed) c es c' -> forall h, DInv c h -> exclusive h es /\ DInv c' (after h es).
Proof.
  intros R. induction R as [c|c e c1 es c2 H R IH]; intros h I; [cbn; auto|].
  destruct (step_inv _ _ _ _ _ I H) as [A B]. destruct (IH _ B) as [A2 B2]. unfold after. rewrite exclusive_app, fold_left_app. auto.
Qed.

(* ---------- progress when a wait with timeout 0 returns ---------- *)
Definition waiting (f : phase) : bool :=
  match f with RGet false | RInc false _ | RSet _ | RWait | RSleep | WOwn | WCas | WSet _ | WWait _ | WSleep => true | _ => false end.
Definition acquires (e : event) : Prop := match e with RdRet _ | RdTry _ true | WrRet _ | WrTry _ true => True | _ => False end.
Definition canget (c : rw * list th) : Prop := exists es c', irun (frw true) c es c' /\ Exists acquires es.

Lemma canget_act s ps u p p' s' : nth_error ps u = Some p -> act true u p s = Some (p', s', NoEff, []) -> canget (s', upd ps u p') -> canget (s, ps).
Proof. intros Hu Ha (es & c' & R & A). exists es, c'. split; auto. change es with ([] ++ es). eapply irun_act; eauto. Qed.
Lemma canget_now s ps u p p' s' e : nth_error ps u = Some p -> act true u p s = Some (p', s', NoEff, [e]) -> acquires e -> canget (s, ps).
Proof. intros Hu Ha A. exists [e], (s', upd ps u p'). split; [|auto]. change [e] with ([e] ++ []). eapply irun_act; eauto. constructor. Qed.
Lemma act_keep s ps u p p' s' : Inv (s, ps) nobody -> nth_error ps u = Some p -> act true u p s = Some (p', s', NoEff, []) -> dead s' = false -> Inv (s', upd ps u p') nobody.
Proof. intros I Hu Ha D. destruct (act_inv _ _ _ _ _ _ _ _ _ _ I Hu Ha (dead_act _ _ _ _ _ Ha)) as [_ [X|X]]; auto. cbn in X. congruence. Qed.

Ltac step1 H := eapply canget_act; [exact H|unfold act; cbn [ph]|].
Lemma get_r s ps t r w : dead s = false -> word s = 0 -> nth_error ps t = Some (mkth r w (RGet false)) -> canget (s, ps).
Proof.
  intros D W H. step1 H. { rewrite D, W. cbn. reflexivity. }
  eapply canget_now; [eapply nth_error_upd_same; exact H|unfold act; cbn [ph go rd wr]; rewrite D, W; cbn; reflexivity|exact I].
Qed.
Lemma get_w s ps t r w : dead s = false -> word s = 0 -> owner s = None -> nth_error ps t = Some (mkth r w WCas) -> canget (s, ps).
Proof.
  intros D W O H. step1 H. { rewrite D, W. cbn. reflexivity. }
  eapply canget_now; [eapply nth_error_upd_same; exact H|unfold act, setw; cbn [dead ph go rd wr]; rewrite D; cbn; reflexivity|exact I].
Qed.
Lemma get_wo s ps t r w : dead s = false -> word s = 0 -> owner s = None -> nth_error ps t = Some (mkth r w WOwn) -> canget (s, ps).
Proof.
  intros D W O H. step1 H. { unfold owned_by. rewrite D, O. reflexivity. }
  eapply (get_w s _ t r w D W O). eapply nth_error_upd_same; exact H.
Qed.
Lemma free_get s ps t p : Inv (s, ps) nobody -> dead s = false -> word s = 0 -> nth_error ps t = Some p -> waiting (ph p) = true -> canget (s, ps).
Proof.
  intros I D W Ht Wt. assert (O : owner s = None).
  { destruct (i_rep _ _ I) as (nr & wb & W1 & W2 & W3). cbn [fst snd] in *. rewrite W in W1. apply (nw_none s ps nobody I). unfold Nrmask in *. lia. }
  pose proof (i_ok _ _ I t p Ht) as K. destruct p as [r w f]. destruct f; try discriminate Wt; try (destruct try; [discriminate Wt|]); cbn in K.
  - eapply get_r; eauto.
  - destruct (Z.eq_dec s0 0) as [E|E].
    + eapply canget_now; [exact Ht|unfold act; cbn [ph]; rewrite D, W, E; cbn; reflexivity|exact Logic.I].
    + step1 Ht. { rewrite D, W. destruct (Z.eqb_spec 0 s0); [congruence|reflexivity]. } eapply (get_r s _ t r w D W). eapply nth_error_upd_same; exact Ht.
  - step1 Ht. { rewrite D, W. destruct (Z.eqb_spec 0 s0) as [E|E]; [subst; discriminate K|reflexivity]. } eapply (get_r s _ t r w D W). eapply nth_error_upd_same; exact Ht.
  - step1 Ht. { rewrite D, W. reflexivity. } eapply (get_r s _ t r w D W). eapply nth_error_upd_same; exact Ht.
  - step1 Ht. { rewrite D. reflexivity. } eapply (get_r s _ t r w D W). eapply nth_error_upd_same; exact Ht.
  - eapply get_wo; eauto.
  - eapply get_w; eauto.
  - step1 Ht. { rewrite D, W. destruct (Z.eqb_spec 0 s0) as [E|E]; [congruence|reflexivity]. } eapply (get_wo s _ t r w D W O). eapply nth_error_upd_same; exact Ht.
  - destruct (Z.eq_dec 0 v) as [E|E].
    + subst v. step1 Ht. { rewrite D, W. reflexivity. } eapply (canget_act s _ t (mkth r w WSleep)); [eapply nth_error_upd_same; exact Ht|unfold act; cbn [ph]; rewrite D; reflexivity|].
      eapply (get_wo s _ t r w D W O). eapply nth_error_upd_same, nth_error_upd_same; exact Ht.
    + step1 Ht. { rewrite D, W. destruct (Z.eqb_spec 0 v); [congruence|reflexivity]. } eapply (get_wo s _ t r w D W O). eapply nth_error_upd_same; exact Ht.
  - step1 Ht. { rewrite D. reflexivity. } eapply (get_wo s _ t r w D W O). eapply nth_error_upd_same; exact Ht.
Qed.
(* no writer inside: let the departing readers go, then the one that clears the wait bit *)
Lemma drain : forall k s ps t p, (Z.to_nat (tot rin ps) = k)%nat -> Inv (s, ps) nobody -> dead s = false -> tot zw ps = 0 ->
  nth_error ps t = Some p -> waiting (ph p) = true -> canget (s, ps).
Proof.
  induction k as [|k IH]; intros s ps t p K I D W Ht Wt; pose proof (tot_nonneg rin ps rin_nn) as Nr.
  - destruct (i_rep _ _ I) as (nr & wb & W1 & W2 & W3). cbn [fst snd] in *. assert (nr = 0) by lia.
    destruct W2 as [W2|W2]; [eapply free_get; eauto; lia|].
    assert (E : word s = Waitbit) by (unfold Waitbit; lia). pose proof (i_pend _ _ I E) as P. cbn [snd] in P. apply tot_ex in P as (u & q & Hu & Hq).
    unfold zp in Hq. destruct (pend q) eqn:Pq; [|cbn in Hq; lia]. destruct q as [r w f].
    assert (CL : forall ps1, Inv (s, ps1) nobody -> nth_error ps1 t = Some p -> nth_error ps1 u = Some (mkth r w RClr) -> canget (s, ps1)).
    { intros ps1 I1 H1 H2. assert (A : act true u (mkth r w RClr) s = Some (mkth r w RWake, setw s 0, NoEff, [])) by (unfold act; cbn [ph]; rewrite D, E; reflexivity).
      eapply canget_act; [exact H2|exact A|]. pose proof (act_keep _ _ _ _ _ _ I1 H2 A D) as I2. eapply free_get; [exact I2|exact D|reflexivity| |exact Wt].
      rewrite nth_error_upd_ne; [exact H1|]. intros ->. assert (p = mkth r w RClr) by congruence. subst p. discriminate Wt. }
    destruct f; try discriminate Pq.
    + apply Z.eqb_eq in Pq. subst prev.
      assert (A : act true u (mkth r w (RChk (Waitbit + 1))) s = Some (mkth r w RClr, s, NoEff, [])) by (unfold act; cbn [ph]; rewrite D; reflexivity).
      eapply canget_act; [exact Hu|exact A|]. apply CL; [eapply act_keep; eauto| |eapply nth_error_upd_same; exact Hu].
      rewrite nth_error_upd_ne; [exact Ht|]. intros ->. assert (p = mkth r w (RChk (Waitbit + 1))) by congruence. subst p. discriminate Wt.
    + apply CL; auto.
  - destruct (tot_ex rin ps) as (u & q & Hu & Hq); [lia|].
    assert (Zr : tot zr ps = 0) by (pose proof (i_rd _ _ I) as X; cbn [nobody readers snd] in X; lia).
    pose proof (tot_zero zr ps u q zr_nn Zr Hu) as Zq. destruct q as [r w f]. unfold zr in Zq. unfold rin in Hq. cbn [rd ph] in Zq, Hq. assert (r = 0%nat) by lia. subst r. destruct f; try lia.
    assert (A : act true u (mkth 0 w RSub) s = Some (mkth 0 w (RChk (word s)), setw s ((word s - 1) mod 2 ^ 32), NoEff, [])) by (unfold act; cbn [ph]; rewrite D; reflexivity).
    eapply canget_act; [exact Hu|exact A|]. pose proof (act_keep _ _ _ _ _ _ I Hu A D) as I2.
    apply (IH _ _ t p); auto.
    + rewrite (tot_upd _ _ _ _ _ Hu). cbn [rin rd ph]. lia.
    + rewrite (tot_upd _ _ _ _ _ Hu). cbn. destruct w; cbn; lia.
    + rewrite nth_error_upd_ne; [exact Ht|]. intros ->. assert (p = mkth 0 w RSub) by congruence. subst p. discriminate Wt.
Qed.
Lemma progress s ps t p : Inv (s, ps) nobody -> dead s = false -> nth_error ps t = Some p -> waiting (ph p) = true -> canget (s, ps).
Proof.
  intros I D Ht Wt. destruct (Z.eq_dec (tot zw ps) 0) as [W|W]; [eapply drain; eauto|]. pose proof (tot_nonneg zw ps zw_nn).
  destruct (tot_ex zw ps) as (u & q & Hu & Hq); [lia|]. unfold zw in Hq. destruct (win q) eqn:Wq; [|cbn in Hq; lia].
  pose proof (i_wr _ _ I u q Hu) as Wr. pose proof (i_own _ _ I u q Hu) as Ow. cbn [fst] in Ow.
  assert (Ne : forall x, waiting x = false -> ph q = x -> t <> u). { intros x X E ->. assert (p = q) by congruence. subst. congruence. }
  destruct q as [r w f]. cbn in Wr, Wq. destruct w; [destruct Wr as [Wr _]; discriminate (Wr eq_refl)|]. cbn [orb] in Wq.
  assert (X3 : forall s1 ps1, Inv (s1, ps1) nobody -> dead s1 = false -> nth_error ps1 t = Some p -> t <> u -> nth_error ps1 u = Some (mkth r false WUXchg) -> canget (s1, ps1)).
  { intros s1 ps1 I1 D1 H1 N1 H2. set (f1 := if Z.land (word s1) Waitbit =? 0 then Rest else WUWake).
    assert (A : act true u (mkth r false WUXchg) s1 = Some (mkth r false f1, setw s1 0, NoEff, [])) by (unfold act; cbn [ph]; rewrite D1; reflexivity).
    eapply canget_act; [exact H2|exact A|]. eapply (free_get _ _ t p); [eapply act_keep; [exact I1|exact H2|exact A|exact D1]|exact D1|reflexivity| |exact Wt]. rewrite nth_error_upd_ne by congruence; assumption. }
  assert (X2 : forall ps1, Inv (s, ps1) nobody -> nth_error ps1 t = Some p -> t <> u -> nth_error ps1 u = Some (mkth r false WUClr) -> canget (s, ps1)).
  { intros ps1 I1 H1 N1 H2.
    assert (A : act true u (mkth r false WUClr) s = Some (mkth r false WUXchg, mkrw (word s) None false, NoEff, [])) by (unfold act; cbn [ph]; rewrite D; reflexivity).
    eapply canget_act; [exact H2|exact A|]. apply X3; auto; [eapply act_keep; [exact I1|exact H2|exact A|reflexivity]|rewrite nth_error_upd_ne by congruence; assumption|eapply nth_error_upd_same; eauto]. }
  destruct f; try discriminate Wq.
  - eapply (canget_now s ps u _ _ _ (if try then WrTry u true else WrRet u)); [exact Hu|unfold act; cbn [ph]; rewrite D; reflexivity|destruct try; exact Logic.I].
  - destruct held; [|discriminate]. assert (O : owned_by s u = true) by (apply owned_by_spec, Ow; reflexivity).
    assert (N : t <> u) by (apply (Ne (WUChk true)); reflexivity).
    assert (A : act true u (mkth r false (WUChk true)) s = Some (mkth r false WUClr, s, NoEff, [])) by (unfold act; cbn [ph]; rewrite D, O; reflexivity).
    eapply canget_act; [exact Hu|exact A|]. apply X2; auto; [eapply act_keep; eauto|rewrite nth_error_upd_ne by congruence; assumption|eapply nth_error_upd_same; eauto].
  - apply X2; auto. apply (Ne WUClr); reflexivity.
  - apply X3; auto. apply (Ne WUXchg); reflexivity.
Qed.
