From Verif Require Import Base Conc Rw_Spec SRw_Model.
Open Scope Z_scope.

Definition zb (b : bool) : Z := if b then 1 else 0.
(* read units counted in _rcount and backed by _lock; a unit not yet backed; holders of _rlock; a reader about to release
   _lock; writers inside *)
Definition rin p := Z.of_nat (rd p) + match ph p with RUn _ true | ULk | UDec => 1 | _ => 0 end.
Definition pnd p := match ph p with RLock | RTry | RDec => 1 | _ => 0 end.
Definition rlk p := match ph p with RInc _ | RLock | RTry | RDec | RUn _ _ | UDec | UUn | UUn2 => 1 | _ => 0 end.
Definition rel p := match ph p with UUn => 1 | _ => 0 end.
Definition win p := zb (wr p) + match ph p with WUn => 1 | _ => 0 end.
Definition zr p := Z.of_nat (rd p).
Definition okp p := match ph p with WUn => wr p = false | RUn false false => False | _ => True end.
Arguments rin !p /. Arguments pnd !p /. Arguments rlk !p /. Arguments rel !p /. Arguments win !p /. Arguments zr !p /. Arguments okp !p /.
Ltac sim := cbn [rin pnd rlk rel win zr okp rd wr ph go lock rlock rcount readers writer zb fst snd].
Ltac simin H := cbn [rin pnd rlk rel win zr okp rd wr ph go lock rlock rcount readers writer zb fst snd] in H.
Lemma rin_nn p : 0 <= rin p. Proof. unfold rin. destruct (ph p) as [| | | | | |? []| | | | | | |]; lia. Qed.
Lemma pnd_nn p : 0 <= pnd p. Proof. unfold pnd. destruct (ph p); lia. Qed.
Lemma rlk_nn p : 0 <= rlk p. Proof. unfold rlk. destruct (ph p); lia. Qed.
Lemma rel_nn p : 0 <= rel p. Proof. unfold rel. destruct (ph p); lia. Qed.
Lemma win_nn p : 0 <= win p. Proof. unfold win, zb. destruct (wr p), (ph p); lia. Qed.
Lemma zr_nn p : 0 <= zr p. Proof. unfold zr. lia. Qed.
(* the global state: N backed units, P pending, K holders of _rlock, L releasing, W writers *)
Definition rep (s : rw) (N P K L W : Z) : Prop :=
  rcount s = (N + P) mod W32 /\ N <= W32 /\ K = zb (rlock s) /\ P <= K /\
  (lock s = false /\ N = 0 /\ L = 0 /\ W = 0 \/
   lock s = true /\ W = 1 /\ N = 0 /\ L = 0 \/
   lock s = true /\ W = 0 /\ L = 0 /\ 0 < N \/
   lock s = true /\ W = 0 /\ L = 1 /\ N = 0 /\ P = 0).
Record Inv (c : rw * list th) (h : held) : Prop := mkInv {
  i_rep : rep (fst c) (tot rin (snd c)) (tot pnd (snd c)) (tot rlk (snd c)) (tot rel (snd c)) (tot win (snd c));
  i_wr : forall t p, nth_error (snd c) t = Some p -> (wr p = true <-> writer h = Some t);
  i_hr : forall t, writer h = Some t -> (t < length (snd c))%nat;
  i_rd : Z.of_nat (readers h) = tot zr (snd c);
  i_ok : forall t p, nth_error (snd c) t = Some p -> okp p }.

Lemma inv_upd s ps h t p p' s' h' : Inv (s, ps) h -> nth_error ps t = Some p ->
  rep s' (tot rin ps - rin p + rin p') (tot pnd ps - pnd p + pnd p') (tot rlk ps - rlk p + rlk p') (tot rel ps - rel p + rel p') (tot win ps - win p + win p') ->
  (writer h' = if wr p' then Some t else if wr p then None else writer h) -> (wr p' = true -> wr p = true \/ writer h = None) ->
  Z.of_nat (readers h') = Z.of_nat (readers h) - zr p + zr p' -> okp p' -> Inv (s', upd ps t p') h'.
Proof.
  intros I Ht Rp H1 H2 R K. destruct I. cbn [fst snd] in *.
  assert (L : (t < length ps)%nat) by (apply nth_error_Some; congruence).
  constructor; cbn [fst snd]; rewrite ?(tot_upd _ ps t p p' Ht), ?upd_length; auto.
  - intros u q Hu. pose proof (i_wr0 t p Ht) as V. apply nth_error_upd_inv in Hu as [(Eu & ->)|(Ne & Hu)].
    + subst u. rewrite H1. destruct (wr p'); [tauto|]. destruct (wr p) eqn:Ep; [split; discriminate|]. rewrite <- V. split; congruence.
    + pose proof (i_wr0 u q Hu) as U. rewrite U, H1. destruct (wr p').
      * destruct (H2 eq_refl) as [G| ->]; [|split; congruence]. apply V in G. rewrite G. split; congruence.
      * destruct (wr p); [|tauto]. rewrite (proj1 V eq_refl). split; congruence.
  - intros u Hu. rewrite H1 in Hu. destruct (wr p'); [injection Hu as <-; auto|]. destruct (wr p); [discriminate|]. auto.
  - rewrite R, i_rd0. lia.
  - intros u q Hu. apply nth_error_upd_inv in Hu as [(Eu & ->)|(Ne & Hu)]; eauto.
Qed.
Lemma W32_pos : 0 < W32. Proof. reflexivity. Qed.
Lemma nw_none s ps h : Inv (s, ps) h -> tot win ps = 0 -> writer h = None.
Proof.
  intros I Z. destruct (writer h) as [u|] eqn:E; auto. exfalso. pose proof (i_hr _ _ I u E) as L. cbn [snd] in L. destruct (nth_error ps u) as [q|] eqn:Q; [|apply nth_error_None in Q; lia].
  pose proof (proj2 (i_wr _ _ I u q Q) E) as G. pose proof (tot_zero win ps u q win_nn Z Q) as F. unfold win in F. rewrite G in F. cbn in F. destruct (ph q); lia.
Qed.
Lemma rd0 ps : tot rin ps = 0 -> tot zr ps = 0.
Proof.
  intros H. pose proof (tot_nonneg zr ps zr_nn). destruct (Z.eq_dec (tot zr ps) 0); auto. destruct (tot_ex zr ps) as (i & x & Hx & Px); [lia|].
  pose proof (tot_zero rin ps i x rin_nn H Hx) as E. unfold rin, zr in *. destruct (ph x) as [| | | | | |? []| | | | | | |]; lia.
Qed.
Lemma inj4 {A B C D} (a a' : A) (b b' : B) (c c' : C) (d d' : D) : Some (a, b, c, d) = Some (a', b', c', d') -> a = a' /\ b = b' /\ c = c' /\ d = d'.
Proof. intros H. injection H as -> -> -> ->. auto. Qed.
Lemma mod_pred a : 0 < W32 -> (a mod W32 - 1) mod W32 = (a - 1) mod W32.
Proof. intros. now rewrite Zminus_mod_idemp_l. Qed.
Lemma mod_succ a : 0 < W32 -> (a mod W32 + 1) mod W32 = (a + 1) mod W32.
Proof. intros. now rewrite Zplus_mod_idemp_l. Qed.

Lemma tot_add {A} (f g : A -> Z) l : tot (fun x => f x + g x) l = tot f l + tot g l.
Proof. induction l; cbn; [reflexivity|]. unfold tot in *. lia. Qed.
Lemma alone f ps t p : (forall q, 0 <= f q <= rlk q) -> nth_error ps t = Some p -> rlk p = 1 -> tot rlk ps <= 1 -> tot f ps = f p.
Proof.
  intros B Ht P K. pose proof (tot_add f (fun q => rlk q - f q) ps) as E.
  assert (E2 : tot (fun x => f x + (rlk x - f x)) ps = tot rlk ps). { clear. induction ps; cbn; [reflexivity|]. unfold tot in *. lia. }
  assert (N : forall q, 0 <= rlk q - f q) by (intros q; specialize (B q); lia).
  pose proof (tot_ge (fun q => rlk q - f q) ps t p N Ht) as G. assert (N2 : forall q, 0 <= f q) by (intros q; specialize (B q); lia).
  pose proof (tot_ge f ps t p N2 Ht) as G2. cbn beta in G, E. lia.
Qed.
Lemma pnd_rlk q : 0 <= pnd q <= rlk q. Proof. unfold pnd, rlk. destruct (ph q); lia. Qed.
Lemma rel_rlk q : 0 <= rel q <= rlk q. Proof. unfold rel, rlk. destruct (ph q); lia. Qed.
Lemma act_inv s ps h t p p' s' f e : Inv (s, ps) h -> nth_error ps t = Some p -> act t p s = Some (p', s', f, e) ->
  exclusive h e /\ Inv (s', upd ps t p') (after h e).
Proof.
  intros I Ht Ha. pose proof (i_rep _ _ I) as Rp. cbn [fst snd] in Rp. pose proof (i_ok _ _ I t p Ht) as O.
  pose proof (tot_ge rin ps t p rin_nn Ht) as G1. pose proof (tot_ge pnd ps t p pnd_nn Ht) as G2. pose proof (tot_ge rlk ps t p rlk_nn Ht) as G3.
  pose proof (tot_ge rel ps t p rel_nn Ht) as G4. pose proof (tot_ge win ps t p win_nn Ht) as G5. pose proof (tot_ge zr ps t p zr_nn Ht) as G6.
  pose proof (tot_nonneg rin ps rin_nn) as N1. pose proof (tot_nonneg pnd ps pnd_nn) as N2. pose proof (tot_nonneg win ps win_nn) as N3.
  pose proof (i_rd _ _ I) as Rd. cbn [snd] in Rd. pose proof (i_wr _ _ I t p Ht) as Wt. pose proof (nw_none _ _ _ I) as NW. pose proof (rd0 ps) as R0.
  pose proof W32_pos as WP.
  assert (AL : rlk p = 1 -> tot pnd ps = pnd p /\ tot rel ps = rel p).
  { intros E. assert (K1 : tot rlk ps <= 1) by (destruct Rp as (_ & _ & -> & _); destruct (rlock s); cbn; lia). split; eapply alone; eauto using pnd_rlk, rel_rlk. }
  assert (Same : upd ps t p = ps). { clear - Ht. revert t Ht. induction ps as [|x l IH]; intros [|t] H; cbn in *; try discriminate; [congruence|]. f_equal; auto. }
  unfold act in Ha. destruct p as [r w fz]. cbn [ph] in Ha. simin O. simin Wt.
  assert (WX : writer h = if w then Some t else if w then None else writer h) by (destruct w; auto; now apply Wt).
  assert (WX2 : w = true -> w = true \/ writer h = None) by auto.
  destruct fz; cbn [go rd wr] in *; simin G1; simin G2; simin G3; simin G4; simin G5; simin G6; simin AL;
    try (destruct (AL eq_refl) as [P0 L0]).
  - discriminate.
  - destruct (rlock s) eqn:K; apply inj4 in Ha as (<- & <- & <- & <-); (split; [exact Logic.I|]); cbn [after fold_left]; [rewrite Same; auto|].
    refine (inv_upd _ _ _ _ _ _ _ _ I Ht _ _ _ _ _); sim; auto; try lia. unfold rep in *. rewrite K in Rp. cbn [lock rlock rcount zb] in *.
    replace (tot rin ps - (Z.of_nat r + 0) + (Z.of_nat r + 0)) with (tot rin ps) by lia. replace (tot pnd ps - 0 + 0) with (tot pnd ps) by lia. intuition lia.
  - apply inj4 in Ha as (<- & <- & <- & <-). split; [exact Logic.I|]. cbn [after fold_left].
    destruct Rp as (Rc & Nm & Rk & Pk & Rl). rewrite P0, Z.add_0_r in Rc. rewrite Rc, mod_succ by lia.
    destruct (Z.eqb_spec (tot rin ps mod W32) 0) as [E|E].
    + destruct try; (refine (inv_upd _ _ _ _ _ _ _ _ I Ht _ _ _ _ _); sim; auto; try lia; unfold rep; cbn [lock rlock rcount]; repeat split; try lia; f_equal; lia).
    + assert (Np : 0 < tot rin ps < W32). { destruct (Z.eq_dec (tot rin ps) 0) as [X|X]; [rewrite X in E; now rewrite Z.mod_0_l in E by lia|]. destruct (Z.eq_dec (tot rin ps) W32) as [Y|Y]; [rewrite Y, Z.mod_same in E by lia; lia|lia]. }
      refine (inv_upd _ _ _ _ _ _ _ _ I Ht _ _ _ _ _); sim; auto; try lia; try (destruct try; exact Logic.I).
      unfold rep. cbn [lock rlock rcount]. repeat split; try lia. f_equal. lia.
  - destruct (lock s) eqn:K; apply inj4 in Ha as (<- & <- & <- & <-); (split; [exact Logic.I|]); cbn [after fold_left]; [rewrite Same; auto|].
    refine (inv_upd _ _ _ _ _ _ _ _ I Ht _ _ _ _ _); sim; auto; try lia. unfold rep in *. rewrite K in Rp. cbn [lock rlock rcount zb] in *.
    destruct Rp as (Rc & Nm & Rk & Pk & Rl). repeat split; try lia; try (destruct w; cbn [zb]; lia). rewrite Rc. f_equal. lia.
  - destruct (lock s) eqn:K; apply inj4 in Ha as (<- & <- & <- & <-); (split; [exact Logic.I|]); cbn [after fold_left].
    + refine (inv_upd _ _ _ _ _ _ _ _ I Ht _ _ _ _ _); sim; auto; try lia. unfold rep in *. cbn [lock rlock rcount zb] in *.
      destruct Rp as (Rc & Nm & Rk & Pk & Rl). repeat split; try lia. rewrite Rc. f_equal. lia.
    + refine (inv_upd _ _ _ _ _ _ _ _ I Ht _ _ _ _ _); sim; auto; try lia. unfold rep in *. rewrite K in Rp. cbn [lock rlock rcount zb] in *.
      destruct Rp as (Rc & Nm & Rk & Pk & Rl). repeat split; try lia; try (destruct w; cbn [zb]; lia). rewrite Rc. f_equal. lia.
  - apply inj4 in Ha as (<- & <- & <- & <-). split; [exact Logic.I|]. cbn [after fold_left].
    refine (inv_upd _ _ _ _ _ _ _ _ I Ht _ _ _ _ _); sim; auto; try lia. unfold rep in *. cbn [lock rlock rcount zb] in *.
    destruct Rp as (Rc & Nm & Rk & Pk & Rl). repeat split; try lia. rewrite Rc, mod_pred by lia. f_equal. lia.
  - apply inj4 in Ha as (<- & <- & <- & <-).
    assert (K : rlock s = true) by (destruct Rp as (Rc & Nm & Rk & Pk & Rl); destruct (rlock s); auto; cbn in Rk; lia).
    unfold rep in Rp. rewrite K in Rp. cbn [zb] in Rp.
    destruct ok.
    + assert (W0 : tot win ps = 0) by lia. pose proof (NW W0) as WN.
      assert (Ev : exclusive h [if try then RdTry t true else RdRet t] /\ after h [if try then RdTry t true else RdRet t] = mkheld (S (readers h)) (writer h)) by (destruct try; cbn; auto).
      destruct Ev as [Ev ->]. split; auto.
      refine (inv_upd _ _ _ _ _ _ _ _ I Ht _ _ _ _ _); sim; auto; try lia. unfold rep. cbn [lock rlock rcount zb].
      destruct Rp as (Rc & Nm & Rk & Pk & Rl). repeat split; try lia. rewrite Rc. f_equal. lia.
    + assert (Ev : exclusive h [if try then RdTry t false else RdRet t] /\ after h [if try then RdTry t false else RdRet t] = h) by (destruct try; [cbn; auto|contradiction]).
      destruct Ev as [Ev ->]. split; auto.
      refine (inv_upd _ _ _ _ _ _ _ _ I Ht _ _ _ _ _); sim; auto; try lia. unfold rep. cbn [lock rlock rcount zb].
      destruct Rp as (Rc & Nm & Rk & Pk & Rl). repeat split; try lia. rewrite Rc. f_equal. lia.
  - destruct (lock s) eqn:K; apply inj4 in Ha as (<- & <- & <- & <-); [split; [exact Logic.I|cbn [after fold_left]; rewrite Same; auto]|].
    unfold rep in Rp. rewrite K in Rp. destruct Rp as (Rc & Nm & Rk & Pk & Rl). assert (W0 : tot win ps = 0) by (destruct Rl as [|[|[|]]]; intuition congruence).
    assert (Hn : h = nobody). { pose proof (NW W0) as X. assert (tot rin ps = 0) as Y by (destruct Rl as [|[|[|]]]; intuition congruence). rewrite (R0 Y) in Rd. destruct h as [a b]. cbn [readers writer] in Rd, X. rewrite X. unfold nobody. f_equal. lia. }
    split; [cbn; auto|]. cbn [after fold_left after1]. assert (w = false) by (destruct w; auto; cbn in G5; lia). subst w.
    refine (inv_upd _ _ _ _ _ _ _ _ I Ht _ _ _ _ _); sim; auto; try lia. unfold rep. cbn [lock rlock rcount zb].
    repeat split; try lia. rewrite Rc. f_equal. lia.
  - destruct (lock s) eqn:K; apply inj4 in Ha as (<- & <- & <- & <-).
    + split; [cbn; auto|]. cbn [after fold_left after1]. refine (inv_upd _ _ _ _ _ _ _ _ I Ht _ _ _ _ _); sim; auto; try lia. unfold rep in *. cbn [lock rlock rcount zb].
      destruct Rp as (Rc & Nm & Rk & Pk & Rl). repeat split; try lia. rewrite Rc. f_equal. lia.
    + unfold rep in Rp. rewrite K in Rp. destruct Rp as (Rc & Nm & Rk & Pk & Rl). assert (W0 : tot win ps = 0) by (destruct Rl as [|[|[|]]]; intuition congruence).
      assert (Hn : h = nobody). { pose proof (NW W0) as X. assert (tot rin ps = 0) as Y by (destruct Rl as [|[|[|]]]; intuition congruence). rewrite (R0 Y) in Rd. destruct h as [a b]. cbn [readers writer] in Rd, X. rewrite X. unfold nobody. f_equal. lia. }
      split; [cbn; auto|]. cbn [after fold_left after1]. assert (w = false) by (destruct w; auto; cbn in G5; lia). subst w.
      refine (inv_upd _ _ _ _ _ _ _ _ I Ht _ _ _ _ _); sim; auto; try lia. unfold rep. cbn [lock rlock rcount zb].
      repeat split; try lia. rewrite Rc. f_equal. lia.
  - destruct (rlock s) eqn:K; apply inj4 in Ha as (<- & <- & <- & <-); (split; [exact Logic.I|]); cbn [after fold_left]; [rewrite Same; auto|].
    refine (inv_upd _ _ _ _ _ _ _ _ I Ht _ _ _ _ _); sim; auto; try lia. unfold rep in *. rewrite K in Rp. cbn [lock rlock rcount zb] in *.
    destruct Rp as (Rc & Nm & Rk & Pk & Rl). repeat split; try lia. rewrite Rc. f_equal. lia.
  - cbv zeta in Ha. apply inj4 in Ha as (<- & <- & <- & <-). split; [exact Logic.I|]. cbn [after fold_left].
    destruct Rp as (Rc & Nm & Rk & Pk & Rl). rewrite P0, Z.add_0_r in Rc. rewrite Rc, mod_pred by lia. rewrite (Z.mod_small (tot rin ps - 1)) by lia.
    destruct (Z.eqb_spec (tot rin ps - 1) 0) as [E|E].
    + refine (inv_upd _ _ _ _ _ _ _ _ I Ht _ _ _ _ _); sim; auto; try lia. unfold rep. cbn [lock rlock rcount zb]. repeat split; try lia. rewrite Z.mod_small; lia.
    + refine (inv_upd _ _ _ _ _ _ _ _ I Ht _ _ _ _ _); sim; auto; try lia. unfold rep. cbn [lock rlock rcount zb]. repeat split; try lia. rewrite Z.mod_small; lia.
  - apply inj4 in Ha as (<- & <- & <- & <-). split; [exact Logic.I|]. cbn [after fold_left].
    refine (inv_upd _ _ _ _ _ _ _ _ I Ht _ _ _ _ _); sim; auto; try lia. unfold rep in *. cbn [lock rlock rcount zb] in *.
    destruct Rp as (Rc & Nm & Rk & Pk & Rl). repeat split; try lia. rewrite Rc. f_equal. lia.
  - apply inj4 in Ha as (<- & <- & <- & <-). split; [exact Logic.I|]. cbn [after fold_left].
    refine (inv_upd _ _ _ _ _ _ _ _ I Ht _ _ _ _ _); sim; auto; try lia. unfold rep in *. cbn [lock rlock rcount zb] in *.
    destruct Rp as (Rc & Nm & Rk & Pk & Rl). repeat split; try lia; [rewrite Rc; f_equal; lia|]. unfold zb in Rk. destruct (rlock s); lia.
  - apply inj4 in Ha as (<- & <- & <- & <-). split; [exact Logic.I|]. cbn [after fold_left]. subst w.
    refine (inv_upd _ _ _ _ _ _ _ _ I Ht _ _ _ _ _); sim; auto; try lia. unfold rep in *. cbn [lock rlock rcount zb] in *.
    destruct Rp as (Rc & Nm & Rk & Pk & Rl). repeat split; try lia. rewrite Rc. f_equal. lia.
Qed.

Lemma start_inv n : Inv (start n) nobody.
Proof.
  unfold start. constructor; cbn [fst snd mkrwlock writer readers nobody]; rewrite ?tot_repeat by reflexivity; try discriminate; auto.
  - unfold rep, W32. cbn. intuition lia.
  - intros t p H. apply nth_error_repeat_inv in H. subst. cbn. split; discriminate.
  - intros t p H. apply nth_error_repeat_inv in H. subst. exact I.
Qed.
Lemma rep_same s N P K L W N' P' K' L' W' : rep s N P K L W -> N' = N -> P' = P -> K' = K -> L' = L -> W' = W -> rep s N' P' K' L' W'.
Proof. intros H -> -> -> -> ->. exact H. Qed.
Lemma calls_inv s ps h t p p' e : Inv (s, ps) h -> nth_error ps t = Some p -> In (p', e) (calls t p s) -> exclusive h e /\ Inv (s, upd ps t p') (after h e).
Proof.
  intros I Ht Hc. unfold calls in Hc. destruct p as [r w f]. cbn [ph rd wr] in Hc. destruct f; try contradiction.
  pose proof (i_rep _ _ I) as Rp. cbn [fst snd] in Rp. pose proof (tot_ge zr ps t _ zr_nn Ht) as Gz. pose proof (i_rd _ _ I) as Rd. simin Gz. cbn [snd] in Rd.
  pose proof (i_wr _ _ I t _ Ht) as Wt. simin Wt.
  assert (WX : writer h = if w then Some t else if w then None else writer h) by (destruct w; auto; now apply Wt).
  apply in_app_or in Hc as [[X|[X|[X|[X|[]]]]]|Hc].
  1-4: injection X as <- <-; split; [exact Logic.I|]; change (after h []) with h; refine (inv_upd _ _ _ _ _ _ _ _ I Ht _ _ _ _ _); sim; auto; try lia.
  1-4: eapply rep_same; [exact Rp|lia..].
  apply in_app_or in Hc as [Hc|Hc].
  - destruct r as [|r]; [contradiction|]. destruct Hc as [X|[]]. injection X as <- <-. split; [exact (conj Logic.I Logic.I)|]. cbn [after fold_left after1].
    refine (inv_upd _ _ _ _ _ _ _ _ I Ht _ _ _ _ _); sim; auto; try lia. eapply rep_same; eauto; lia.
  - destruct w; [|contradiction]. destruct Hc as [X|[]]. injection X as <- <-. split; [exact (conj Logic.I Logic.I)|]. cbn [after fold_left after1].
    refine (inv_upd _ _ _ _ _ _ _ _ I Ht _ _ _ _ _); sim; auto; try lia; try discriminate.
    + eapply rep_same; eauto; lia.
    + rewrite (proj1 Wt eq_refl), Nat.eqb_refl. reflexivity.
Qed.
Lemma step_inv c h e c' : Inv c h -> step srw c e c' -> exclusive h e /\ Inv c' (after h e).
Proof.
  intros I H. destruct H as [s ps t p p' e Ht Hc|s ps t p p' s' e Ht Ha|s ps t p p' s' a e j q Ht Ha Hj Nj Hq|s ps t p p' s' a e Ht Ha Hn|s ps t p p' s' a e Ht Ha|s ps t p a Ht Ha];
    cbn [srw Conc.act Conc.calls] in *.
  - eapply calls_inv; eauto.
  - eapply act_inv; eauto.
  - discriminate.
  - eapply act_inv; eauto.
  - exfalso. unfold act in Ha. destruct (ph p); try discriminate; repeat (match type of Ha with context [if ?b then _ else _] => destruct b end); discriminate.
  - discriminate.
Qed.
Lemma exclusive_app : forall a b h, exclusive h (a ++ b) <-> exclusive h a /\ exclusive (after h a) b.
Proof. induction a as [|e a IH]; intros b h; cbn [app exclusive after fold_left]; [tauto|]. rewrite IH. unfold after. tauto. Qed.
Lemma run_inv_ c es c' : run srw c es c' -> forall h, Inv c h -> exclusive h es /\ Inv c' (after h es).
Proof.
  intros R. induction R as [c|c e c1 es c2 H R IH]; intros h I; [cbn; auto|].
  destruct (step_inv _ _ _ _ I H) as [A B]. destruct (IH _ B) as [A2 B2]. unfold after. rewrite exclusive_app, fold_left_app. auto.
Qed.
