(* Register allocator: coalescing, freezing and choosing spill candidates keep the invariant of Ra_Core. *)
From Verif Require Import Base Cfg_Reach Ra_Spec Ra_Model Ra_Live Ra_Tables Ra_Wl Ra_Core.
Import Ra_Spec Ra_Model.

Lemma modeidx_in m : In (modeidx m) (seq 0 Nmode).
Proof. destruct m; cbn; tauto. Qed.

Section Steps.
Variable p : prog.
Hypothesis W : wf_prog p.
Notation nreg := (nregs p).
Notation U := (Ra_Wl.U p).
Notation rep := (getalias p).

(* ---------- operands of moves ---------- *)

Lemma move_ops m : Pm p m -> exists i, in_prog p i /\ copies i (m_src m) (m_dst m) /\ uid i = m_uid m.
Proof.
  intros (i & Hi & E). exists i. unfold ismove in E. destruct (iop i) eqn:O; [|discriminate].
  destruct (wf_mov p W i Hi O) as (a & b & Ab). rewrite Ab in E. destruct a as [a| | |]; try discriminate. destruct b as [b| | |]; try discriminate.
  injection E as <-. repeat split; auto.
Qed.
Lemma op_node m x : Pm p m -> x = m_src m \/ x = m_dst m -> node p x.
Proof.
  intros Hm Hx. destruct (move_ops m Hm) as (i & Hi & (O & Ag) & _).
  assert (Mx : mentions i x). { left. rewrite Ag. destruct Hx as [->| ->]; [exists (Lreg (m_src m))|exists (Lreg (m_dst m))]; cbn; auto. }
  destruct (wf_regs p W i x Hi Mx) as [L N]. pose proof (wf_nofix p i W Hi) as NF. split; auto. split; [intros P; apply N; now apply prep_phys|].
  intros _. exists i. split; auto. rewrite uses_reads, defs_writes by auto.
  destruct Hx as [->| ->]; [left|right]; left; rewrite O; cbn [op_ul op_dl]; eexists; (split; [now left|]); unfold argreg; rewrite Ag; reflexivity.
Qed.
Lemma move_frame m : Pm p m -> (fixedreg (m_src m) = true -> prepainted (m_dst m) = true) /\ (fixedreg (m_dst m) = true -> prepainted (m_src m) = true).
Proof.
  intros Hm. destruct (move_ops m Hm) as (i & Hi & C & _). destruct (wf_frame p W i _ _ Hi C) as [A B]. rewrite !framereg_fixed in *.
  rewrite !prep_phys. auto.
Qed.

(* ---------- wladd ---------- *)

Lemma wladd_full s u s' : Full p None s -> u < nreg -> bshas (coal s) u = false -> wladd p s u = Some s' -> Full p None s' /\ same_core s s'.
Proof.
  intros ((Wl & M & C) & A & G & D & L) Hu Cu E. unfold wladd in E.
  destruct (prepainted u) eqn:Pu. { injection E as <-. split; [|apply same_core_refl]. unfold Full, Inv; auto 10. }
  destruct (moverelated s u) eqn:Mr. { injection E as <-. split; [|apply same_core_refl]. unfold Full, Inv; auto 10. }
  destruct (istrivial p s u); cbn [negb] in E. 2: { injection E as <-. split; [|apply same_core_refl]. unfold Full, Inv; auto 10. }
  destruct (pl_eqb (nth u (place s) Pnull) Pfreeze || pl_eqb (nth u (place s) Pnull) Psimp) eqn:Pl; [|discriminate]. injection E as <-.
  set (s1 := if wlfind (wlfreeze s) u then del_freeze s u else s).
  assert (SC : same_core s (put_simp s1 u)) by (unfold s1; destruct (wlfind _ _); repeat split).
  split; [|exact SC]. split; [|exact (core_ext p s _ SC A G D L)].
  assert (Npl : nth u (place s) Pnull = Pfreeze \/ nth u (place s) Pnull = Psimp) by (apply orb_true_iff in Pl; now rewrite !pl_eqb_eq in Pl).
  split; [|split].
  - apply (Wl_to_simp p None s); auto. unfold s1. destruct (wlfind (wlfreeze s) u) eqn:F.
    + right. left. split; auto. now apply wlfind_in.
    + right. right. split; auto. apply wlfind_out in F. split; auto. split; [|split; auto].
      * intros Hc. apply (w_spill p None s Wl) in Hc. destruct Npl; congruence.
      * intros Hc. apply (w_sel p None s Wl u Hu) in Hc. destruct Npl; congruence.
  - apply (Mv_ext p s); auto; unfold s1; destruct (wlfind _ _); auto.
  - apply (Comp_step p s _ u); auto; unfold Placed, s1.
    + intros x Nx. destruct (wlfind (wlfreeze s) u); fld; rewrite ?in_snoc; [|tauto].
      intros [H|[H|H]]; try tauto. right. left. now apply in_remove1_neq.
    + destruct (wlfind (wlfreeze s) u); fld; rewrite in_snoc; auto.
Qed.

(* ---------- taking a move off the worklist ---------- *)

Lemma popmove_full s m : Full p None s -> wlmove s <> [] -> m = last (wlmove s) (mkMv 0 0 0) ->
  let s1 := set_moves s (removelast (wlmove s)) (mactive s) (bsdel (wlmoveset s) (m_uid m)) (mactiveset s) in
  Full p None s1 /\ same_core s s1 /\ Pm p m /\ ~ In (m_uid m) (map m_uid (wlmove s1 ++ mactive s1)) /\
  bshas (wlmoveset s1) (m_uid m) = false /\ bshas (mactiveset s1) (m_uid m) = false /\
  (forall x, x = m_src m \/ x = m_dst m -> prepainted (rep s x) = true \/ exists m', In m' (nth (rep s x) (rmoves s) []) /\ m_uid m' = m_uid m) /\
  (forall x, x = m_src m \/ x = m_dst m -> ~ In (rep s x) (selstk s)).
Proof.
  intros ((Wl & M & C) & A & G & D & L) Hne Em s1.
  assert (Ew : wlmove s = removelast (wlmove s) ++ [m]) by (rewrite Em; now apply app_removelast_last).
  assert (Hm : In m (wlmove s)) by (rewrite Ew; apply in_snoc; auto).
  assert (Hm' : In m (wlmove s ++ mactive s)) by (apply in_or_app; auto).
  pose proof (v_prog p s M m Hm') as PM. pose proof (v_wl p s M m Hm) as BW. pose proof (v_disj p s M _ BW) as BA.
  assert (PW : Permutation (wlmove s ++ mactive s) (m :: (removelast (wlmove s) ++ mactive s))).
  { rewrite Ew at 1. rewrite <- app_assoc. cbn [app]. symmetry. apply Permutation_middle. }
  pose proof (v_nodup p s M) as ND. apply (Permutation_NoDup (Permutation_map m_uid PW)) in ND. cbn [map] in ND.
  apply NoDup_cons_iff in ND as [ND1 ND2].
  assert (IN : forall x, In x (removelast (wlmove s) ++ mactive s) -> In x (wlmove s ++ mactive s) /\ m_uid x <> m_uid m).
  { intros x Hx. split; [eapply Permutation_in; [symmetry; exact PW|now right]|]. intros E. apply ND1. rewrite <- E. now apply in_map. }
  assert (SC : same_core s s1) by (repeat split).
  split; [|split; [exact SC|split; [exact PM|split; [exact ND1|split; [|split; [exact BA|split]]]]]].
  - split; [|exact (core_ext p s _ SC A G D L)]. split; [|split].
    + unfold s1. destruct Wl. split; fld; auto. intros z Hz Ne. apply (moverelated_mono s); auto.
      intros x. unfold enabled. fld. rewrite has_del. destruct (bshas (mactiveset s) (m_uid x)); auto. cbn [orb]. intros Q. now apply andb_true_iff in Q.
    + unfold s1. split; fld; auto.
      * intros x Hx. apply (v_prog p s M), IN, Hx.
      * apply (v_rprog p s M).
      * intros x Hx. rewrite has_del, (v_wl p s M x (in_removelast _ _ _ Hx)). cbn [andb]. apply negb_true_iff, Nat.eqb_neq.
        destruct (IN x (in_or_app _ _ _ (or_introl Hx))); auto.
      * apply (v_act p s M).
      * intros x. rewrite has_del. intros H. apply andb_true_iff in H as [H _]. now apply (v_disj p s M).
      * intros x y Hx Hy. destruct (v_rm p s M x y (proj1 (IN x Hx)) Hy); auto.
    + exact C.
  - unfold s1. fld. rewrite has_del, Nat.eqb_refl. apply andb_false_r.
  - intros x Hx. apply (v_rm p s M m x Hm' Hx).
  - intros x Hx Hc. destruct (v_rm p s M m x Hm' Hx) as [P|(m' & Hi & Eu)].
    + destruct (w_rng p None s Wl _ ltac:(do 3 right; exact Hc)) as (_ & Q & _). congruence.
    + assert (moverelated s (rep s x) = true); [|rewrite (w_mv p None s Wl) in *; auto; discriminate].
      apply moverelated_in. exists m'. split; auto. unfold enabled. rewrite Eu, BW. apply orb_true_r.
Qed.

(* ---------- combining ---------- *)

Lemma in_unionmoves b : forall a m, In m (unionmoves a b) -> In m a \/ In m b.
Proof.
  unfold unionmoves. induction b as [|x b IH]; intros a m H; cbn [fold_left] in H; auto.
  apply IH in H as [H|H]; [|cbn; auto]. destruct (existsb (mv_eqb x) a); auto. apply in_snoc in H as [H| ->]; cbn; auto.
Qed.
Lemma unionmoves_l b : forall a m, In m a -> In m (unionmoves a b).
Proof.
  unfold unionmoves. induction b as [|x b IH]; intros a m H; cbn [fold_left]; auto. apply IH. destruct (existsb (mv_eqb x) a); auto. apply in_snoc; auto.
Qed.
Lemma unionmoves_r b : forall a m, In m b -> exists m', In m' (unionmoves a b) /\ m_uid m' = m_uid m.
Proof.
  unfold unionmoves. induction b as [|x b IH]; intros a m H; [destruct H|]. cbn [fold_left]. destruct H as [->|H]; [|now apply IH].
  destruct (existsb (mv_eqb m) a) eqn:E.
  - apply existsb_exists in E as (m' & Hm' & E). exists m'. split; [now apply unionmoves_l|]. apply Nat.eqb_eq in E. auto.
  - exists m. split; auto. apply unionmoves_l, in_snoc. auto.
Qed.

(* the state in combine before the loop *)
Definition merged (s : st) (u v : nat) : st :=
  let s := if wlfind (wlfreeze s) v then del_freeze s v
           else if wlfind (wlspill s) v then del_spill s v else s in
  let s := set_place s v Pcoal in
  let s := set_alias s (bsput (coal s) v) (upd (alias s) v (Some u)) in
  set_rmoves s (upd (rmoves s) u (unionmoves (nth u (rmoves s) []) (nth v (rmoves s) []))).

Lemma merged_inv s u v : Full p None s -> wlsimp s = [] -> u < nreg -> v < nreg -> u <> v ->
  bshas (coal s) u = false -> bshas (coal s) v = false -> prepainted v = false -> target p v u ->
  ~ In u (selstk s) -> ~ In v (selstk s) ->
  let s' := merged s u v in
  Inv p None s' /\ Al p s' /\ (forall x, rep s' x = if rep s x =? v then u else rep s x) /\
  gb s' = gb s /\ adj s' = adj s /\ selstk s' = selstk s /\ coal s' = bsput (coal s) v /\ length (rmoves s') = nreg.
Proof.
  intros ((Wl & M & C) & A & G & D & L) Es Lu Lv Ne Cu Cv Pv T Su Sv s'.
  set (s1 := if wlfind (wlfreeze s) v then del_freeze s v else if wlfind (wlspill s) v then del_spill s v else s).
  assert (SC : same_core s s1) by (unfold s1; destruct (wlfind _ _); [|destruct (wlfind _ _)]; repeat split).
  destruct (w_spill p None s Wl) as [S1 S2]. destruct (w_freeze p None s Wl) as [F1 F2].
  assert (E1 : wlsimp s1 = [] /\ length (place s1) = nreg /\ NoDup (wlspill s1) /\ NoDup (wlfreeze s1) /\
    (forall z, In z (wlspill s1) -> In z (wlspill s) /\ z <> v) /\ (forall z, In z (wlfreeze s1) -> In z (wlfreeze s) /\ z <> v) /\
    (forall z, z <> v -> In z (wlspill s) -> In z (wlspill s1)) /\ (forall z, z <> v -> In z (wlfreeze s) -> In z (wlfreeze s1)) /\
    (forall z, z <> v -> nth z (place s1) Pnull = nth z (place s) Pnull) /\ wlmove s1 = wlmove s /\ mactive s1 = mactive s /\
    wlmoveset s1 = wlmoveset s /\ mactiveset s1 = mactiveset s).
  { unfold s1. pose proof (w_len p None s Wl) as PL. destruct (wlfind (wlfreeze s) v) eqn:Q1; [|destruct (wlfind (wlspill s) v) eqn:Q2]; fld; rewrite ?upd_length.
    - apply wlfind_in in Q1. destruct (nodup_remove1 v _ F1) as [F3 F4]. repeat split; auto.
      + intros ->. apply F2 in Q1. apply S2 in H. congruence.
      + eapply in_remove1; eauto. + intros ->. tauto.
      + intros; now apply in_remove1_neq. + intros; now apply nth_upd_other; auto.
    - apply wlfind_out in Q1. apply wlfind_in in Q2. destruct (nodup_remove1 v _ S1) as [S3 S4]. repeat split; auto.
      + eapply in_remove1; eauto. + intros ->. tauto. + intros ->. tauto.
      + intros; now apply in_remove1_neq. + intros; now apply nth_upd_other; auto.
    - apply wlfind_out in Q1, Q2. repeat split; auto; intros ->; tauto. }
  destruct E1 as (W1 & W2 & W3 & W4 & W5 & W6 & W7 & W8 & W9 & W10 & W11 & W12 & W13).
  destruct SC as (C1 & C2 & C3 & C4 & C5 & C6).
  assert (R' : forall x, rep s' x = if rep s x =? v then u else rep s x).
  { intros x. destruct (merge_al p s u v A Lu Lv Ne Cu Cv Pv T) as [_ H]. rewrite <- H. apply rep_ext. unfold s', merged, merge. fold s1. fld. now rewrite C4. }
  assert (A' : Al p s').
  { destruct (merge_al p s u v A Lu Lv Ne Cu Cv Pv T) as [H _]. apply (Al_ext p (merge s u v)); auto; unfold s', merged, merge; fold s1; fld; congruence. }
  assert (RM : forall z, nth z (rmoves s') [] = if z =? u then unionmoves (nth u (rmoves s) []) (nth v (rmoves s) []) else nth z (rmoves s) []).
  { intros z. unfold s', merged. fold s1. fld. rewrite C6, nth_upd, (Nat.eqb_sym u z), L. apply Nat.ltb_lt in Lu. rewrite Lu, andb_true_r. reflexivity. }
  assert (FD : gb s' = gb s /\ adj s' = adj s /\ selstk s' = selstk s /\ coal s' = bsput (coal s) v /\ wlsimp s' = [] /\ wlspill s' = wlspill s1 /\ wlfreeze s' = wlfreeze s1 /\
      wlmove s' = wlmove s /\ mactive s' = mactive s /\ wlmoveset s' = wlmoveset s /\ mactiveset s' = mactiveset s /\ place s' = upd (place s1) v Pcoal).
  { unfold s', merged. fold s1. fld. repeat split; auto. congruence. }
  destruct FD as (D1 & D2 & D3 & D4 & D5 & D6 & D7 & D8 & D9 & D10 & D11 & D12).
  assert (PL : forall z, z <> v -> nth z (place s') Pnull = nth z (place s) Pnull) by (intros z Hz; rewrite D12, nth_upd_other; auto).
  assert (RL : length (rmoves s') = nreg) by (unfold s', merged; fold s1; fld; rewrite upd_length; congruence).
  split; [|auto 10].
  split; [|split].
  - split; rewrite ?D3, ?D5, ?D6, ?D7.
    + rewrite D12, upd_length. auto.
    + split; auto. intros z Hz. destruct (W5 z Hz). rewrite PL by auto. auto.
    + split; auto. intros z Hz. destruct (W6 z Hz). rewrite PL by auto. auto.
    + intros z [].
    + intros z Hz. destruct (Nat.eq_dec z v) as [->|Nz].
      * rewrite D12, nth_upd_same by lia. split; [discriminate|tauto].
      * rewrite PL by auto. now apply (w_sel p None s Wl).
    + intros z Hz. assert (z <> v). { intros ->. destruct Hz as [[]|[Hz|[Hz|Hz]]]; [now apply W6 in Hz|now apply W5 in Hz|tauto]. }
      rewrite D4, has_put. destruct (Nat.eqb_spec v z); [congruence|]. cbn [orb]. apply (w_rng p None s Wl). destruct Hz as [[]|[Hz|[Hz|Hz]]]; auto; [apply W6 in Hz|apply W5 in Hz]; tauto.
    + intros z [[]|Hz] Nz. unfold moverelated, enabled. rewrite RM, D10, D11. destruct (Nat.eqb_spec z u) as [->|_]; [tauto|].
      apply (w_mv p None s Wl); auto.
  - split; rewrite ?D8, ?D9, ?D10, ?D11.
    + apply (v_nodup p s M). + apply (v_prog p s M).
    + intros r m. rewrite RM. destruct (r =? u); [|apply (v_rprog p s M)]. intros H. apply in_unionmoves in H as [H|H]; eapply (v_rprog p s M); eauto.
    + apply (v_wl p s M). + apply (v_act p s M). + apply (v_disj p s M).
    + intros m x Hm Hx. rewrite R', RM. destruct (v_rm p s M m x Hm Hx) as [H|(m' & Hm' & Em)].
      * left. destruct (Nat.eqb_spec (rep s x) v) as [E|E]; auto. congruence.
      * right. destruct (Nat.eqb_spec (rep s x) v) as [E|E].
        -- rewrite Nat.eqb_refl. rewrite E in Hm'. destruct (unionmoves_r _ (nth u (rmoves s) []) _ Hm') as (m2 & H2 & E2). exists m2. split; auto. congruence.
        -- destruct (Nat.eqb_spec (rep s x) u) as [Eu|Eu]; [|eauto]. exists m'. split; auto. apply unionmoves_l. now rewrite <- Eu.
  - intros x Ux Px. specialize (C x Ux Px). unfold Placed in *. rewrite D3, D4, D5, D6, D7, has_put. rewrite Es in C.
    destruct (Nat.eq_dec x v) as [->|Nx]; [rewrite Nat.eqb_refl; tauto|]. destruct (Nat.eqb_spec v x); [congruence|]. cbn [orb].
    destruct C as [[]|[H|[H|H]]]; auto; tauto.
Qed.

(* one step of the loop in combine keeps this: s0 is the state before, u the register that stays *)
Record During (s0 : st) (u v : nat) (s : st) : Prop := {
  r_inv : Inv p None s;
  r_gr : Gr p s;
  r_alias : alias s = alias s0;
  r_coal : coal s = coal s0;
  r_sel : selstk s = selstk s0;
  r_rmoves : rmoves s = rmoves s0;
  r_old : forall a b, edge s0 a b -> edge s a b;
  r_new : forall a b, edge s a b -> edge s0 a b \/
     exists t, t <> u /\ ~ In t (selstk s0) /\ bshas (coal s0) t = false /\ ((a = t /\ b = u) \/ (a = u /\ b = t));
  r_adj : forall w x, In x (nth w (adj s0) []) -> In x (nth w (adj s) []) }.

Lemma Inv_graph e s g a d : Inv p e s -> Inv p e (set_graph s g a d).
Proof.
  intros (Wl & M & C). split; [|split].
  - destruct Wl. split; auto.
  - apply (Mv_ext p s); auto.
  - exact C.
Qed.

Lemma availsel e s t : Wl p e s -> t < nreg -> adjavail s t = negb (existsb (Nat.eqb t) (selstk s)) && negb (bshas (coal s) t).
Proof.
  intros H Ht. unfold adjavail. f_equal. f_equal. pose proof (w_sel p e s H t Ht) as Q.
  destruct (existsb (Nat.eqb t) (selstk s)) eqn:E.
  - apply existsb_eqb in E. apply pl_eqb_eq. tauto.
  - apply existsb_eqb_f in E. destruct (pl_eqb _ _) eqn:F; auto. apply pl_eqb_eq in F. tauto.
Qed.

Lemma during_step s0 u v s t s' : node p u -> During s0 u v s -> node p t -> adjavail s t = true ->
  decdegree p (addedge p s t u) t = Some s' -> During s0 u v s' /\ (allowed p t u -> edge s' t u).
Proof.
  intros Nu Du Nt Av E. pose proof (r_inv _ _ _ _ Du) as I. pose proof (r_gr _ _ _ _ Du) as G.
  destruct (addedge_spec p s t u G Nt Nu) as (G1 & (g & a & d & Eg) & M1 & M2 & M3 & M4).
  assert (I1 : Inv p None (addedge p s t u)) by (rewrite Eg; now apply Inv_graph).
  destruct (decdegree_inv p W None _ t s' I1 E) as [I2 (C1 & C2 & C3 & C4 & C5 & C6)].
  assert (EE : forall a b, edge s' a b <-> edge (addedge p s t u) a b) by (intros; unfold edge, gbhasedge; now rewrite C1).
  split; [|intros H; apply EE; auto].
  split.
  - exact I2.
  - now apply (Gr_ext p (addedge p s t u)).
  - rewrite C4, Eg. apply Du.
  - rewrite C3, Eg. apply Du.
  - rewrite C5, Eg. apply Du.
  - rewrite C6, Eg. apply Du.
  - intros x y H. apply EE, M1. now apply (r_old _ _ _ _ Du).
  - intros x y H. apply EE in H. apply M2 in H as [H|((A1 & _) & H)]; [now apply (r_new _ _ _ _ Du)|]. right. exists t.
    rewrite (availsel None s t (proj1 I) (proj1 Nt)), (r_sel _ _ _ _ Du), (r_coal _ _ _ _ Du) in Av. apply andb_true_iff in Av as [Av1 Av2].
    apply negb_true_iff in Av1, Av2. apply existsb_eqb_f in Av1. auto.
  - intros w x H. rewrite C2. apply M4. now apply (r_adj _ _ _ _ Du).
Qed.

Lemma during_loop s0 u v : node p u -> forall l s s', During s0 u v s -> (forall t, In t l -> node p t) ->
  for_avail (fun s t => decdegree p (addedge p s t u) t) s l = Some s' ->
  During s0 u v s' /\ (forall a b, edge s a b -> edge s' a b) /\
  (forall t, In t l -> ~ In t (selstk s0) -> bshas (coal s0) t = false -> allowed p t u -> edge s' t u).
Proof.
  intros Nu. assert (DN : forall l, fold_left (fun o t => bind o (fun s => if adjavail s t then decdegree p (addedge p s t u) t else Some s)) l None = None).
  { induction l; auto. }
  unfold for_avail. induction l as [|t l IH]; intros s s' Du HN E; cbn [fold_left] in E.
  - injection E as <-. split; auto. split; auto. intros t [].
  - cbn [bind] in E. pose proof (HN t (or_introl eq_refl)) as Nt. destruct (adjavail s t) eqn:Av.
    + destruct (decdegree p (addedge p s t u) t) as [s1|] eqn:E1; [|rewrite DN in E; discriminate].
      destruct (during_step s0 u v s t s1 Nu Du Nt Av E1) as [D1 H1].
      destruct (IH s1 s' D1 (fun x Hx => HN x (or_intror Hx)) E) as (D2 & H2 & H3).
      assert (H4 : forall a b, edge s a b -> edge s1 a b).
      { intros x y H. destruct (addedge_spec p s t u (r_gr _ _ _ _ Du) Nt Nu) as (G1 & (g & a & d & Eg) & M1 & M2 & M3 & M4).
        assert (I1 : Inv p None (addedge p s t u)) by (rewrite Eg; apply Inv_graph; apply Du).
        destruct (decdegree_inv p W None _ t s1 I1 E1) as [_ (C1 & _)]. unfold edge, gbhasedge. rewrite C1. now apply M1. }
      split; auto. split; auto. intros x [<-|Hx]; auto.
    + destruct (IH s s' Du (fun x Hx => HN x (or_intror Hx)) E) as (D2 & H2 & H3). split; auto. split; auto.
      intros x [<-|Hx] Sx Cx; auto. exfalso. rewrite (availsel None s t (proj1 (r_inv _ _ _ _ Du)) (proj1 Nt)), (r_sel _ _ _ _ Du), (r_coal _ _ _ _ Du) in Av.
      apply existsb_eqb_f in Sx. rewrite Sx, Cx in Av. discriminate.
Qed.

Lemma combine_full s u v s' : Full p None s -> wlsimp s = [] -> node p u -> v < nreg -> u <> v ->
  bshas (coal s) u = false -> bshas (coal s) v = false -> prepainted v = false -> target p v u ->
  ~ In u (selstk s) -> ~ In v (selstk s) -> constrained s u v = false -> combine p s u v = Some s' ->
  Full p None s' /\ bshas (coal s') u = false.
Proof.
  intros F Es Nu Lv Ne Cu Cv Pv T Su Sv Cn E. pose proof F as ((Wl & M & C) & A & G & D & L).
  pose proof (proj1 Nu) as Lu.
  destruct (merged_inv s u v F Es Lu Lv Ne Cu Cv Pv T Su Sv) as (I0 & A0 & R0 & B1 & B2 & B3 & B4 & B5).
  unfold combine in E. cbv zeta in E. fold (merged s u v) in E. set (s0 := merged s u v) in *.
  change (bind (for_avail (fun s t => decdegree p (addedge p s t u) t) s0 (nth v (adj s0) []))
    (fun s => if negb (istrivial p s u) && wlfind (wlfreeze s) u then Some (put_spill (del_freeze s u) u) else Some s) = Some s') in E.
  destruct (for_avail _ s0 _) as [s1|] eqn:E1; cbn [bind] in E; [|discriminate].
  assert (G0 : Gr p s0) by (now apply (Gr_ext p s)).
  assert (E0 : forall a b, edge s0 a b <-> edge s a b) by (intros; unfold edge, gbhasedge; now rewrite B1).
  assert (D0 : During s0 u v s0) by (split; auto).
  assert (NV : forall t, In t (nth v (adj s0) []) -> node p t).
  { intros t Ht. apply (g_adj p s0 G0 v t Lv Pv) in Ht. apply (g_sym p s0 G0) in Ht. now apply (g_edge p s0 G0) in Ht. }
  destruct (during_loop s0 u v Nu _ s0 s1 D0 NV E1) as (D1 & _ & D2).
  assert (Al1 : Al p s1) by (apply (Al_ext p s0); auto; apply D1).
  assert (R1 : forall x, rep s1 x = if rep s x =? v then u else rep s x).
  { intros x. rewrite <- R0. apply rep_ext. apply D1. }
  assert (S1 : selstk s1 = selstk s) by (rewrite (r_sel _ _ _ _ D1); auto).
  assert (Cu1 : bshas (coal s1) u = false).
  { rewrite (r_coal _ _ _ _ D1), B4, has_put, Cu. destruct (Nat.eqb_spec v u); [congruence|reflexivity]. }
  (* an edge between v and an available y gives what is needed between u and y *)
  assert (VU : forall y, edge s v y -> y = rep s y -> bshas (coal s) y = false -> ~ In y (selstk s) ->
     u <> y /\ if prepainted u && prepainted y then colourmap u <> colourmap y else edge s1 u y).
  { intros y Hv Ry Cy Sy. destruct (g_edge p s G v y Hv) as (_ & N1 & N2 & _ & _). pose proof (g_sym p s G _ _ Hv) as Hv'.
    destruct (g_edge p s G y v Hv') as (Ny & _ & _ & _ & Fy).
    assert (Ny2 : u <> y).
    { intros <-. unfold constrained in Cn. rewrite Pv in Cn. destruct (prepainted u && _); [discriminate|]. unfold edge in Hv'. congruence. }
    split; auto. destruct (prepainted u && prepainted y) eqn:PP.
    - apply andb_true_iff in PP as [Pu Py]. intros Ec. unfold constrained in Cn. rewrite Pv, Pu in Cn. cbn [andb] in Cn.
      assert (Q : existsb (fun i => let r := regmap (colourmap u) i in negb (r =? 0) && gbhasedge s r v) (seq 0 Nmode) = true); [|cbv zeta in Q, Cn; rewrite Q in Cn; discriminate].
      pose proof (node_general p y Ny Py Fy) as Gy. apply existsb_exists. exists (modeidx (hwmode y)). split.
      + apply modeidx_in.
      + cbv zeta. rewrite Ec, (regmap_colourmap y Gy). apply andb_true_iff. split; auto. apply general_lt in Gy. apply negb_true_iff, Nat.eqb_neq. clear - Gy. lia.
    - apply (g_sym p s1 (r_gr _ _ _ _ D1)). apply D2.
      + rewrite B2. now apply (g_adj p s G v y Lv Pv).
      + now rewrite B3.
      + rewrite B4, has_put, Cy. destruct (Nat.eqb_spec v y); [congruence|reflexivity].
      + destruct T as (_ & T2 & T3 & _). repeat split; auto; [|now rewrite andb_comm].
        unfold rcls in *. rewrite T2. auto. }
  assert (RR : forall x, bshas (coal s) (rep s x) = false) by (intros; now apply rep_root).
  assert (RI : forall x, rep s (rep s x) = rep s x) by (intros; apply rep_id; auto).
  assert (Good1 : Good p s1).
  { intros x y Hxy1. rewrite !R1, S1. pose proof (r_new _ _ _ _ D1 _ _ Hxy1) as Hxy. destruct Hxy as [Hxy|(t & Nt & St & Ct & Hxy)].
    - apply E0 in Hxy. destruct (D x y Hxy) as (Q1 & Q2 & Q3).
      assert (Ad : forall l, In l (nth (rep s y) (adj s) []) -> In l (nth (rep s y) (adj s1) [])) by (intros l Hl; apply (r_adj _ _ _ _ D1); now rewrite B2).
      destruct (Nat.eqb_spec (rep s x) v) as [Ex|Ex]; destruct (Nat.eqb_spec (rep s y) v) as [Ey|Ey].
      + congruence.
      + (* x becomes u *) rewrite Ex in *. split; [|split].
        * destruct (in_dec Nat.eq_dec (rep s y) (selstk s)) as [Hy|Hy]; [intros Eq; apply Su; now rewrite Eq|].
          specialize (Q3 Sv Hy). rewrite Pv in Q3. cbn [andb] in Q3. now apply (VU (rep s y)).
        * intros l1 l2 H1 H2 H3. destruct (Q2 l1 l2 H1 H2) as (l & Hl & Hr).
          { intros Hc. apply Sv. rewrite H1. apply in_or_app; auto. }
          exists l. split; auto. rewrite R1, Hr, Nat.eqb_refl. reflexivity.
        * intros _ Hy. specialize (Q3 Sv Hy). rewrite Pv in Q3. cbn [andb] in Q3. now apply (VU (rep s y)).
      + (* y becomes u *) rewrite Ey in *. split; [|split].
        * destruct (in_dec Nat.eq_dec (rep s x) (selstk s)) as [Hy|Hy]; [intros Eq; apply Su; now rewrite <- Eq|].
          specialize (Q3 Hy Sv). rewrite Pv, andb_false_r in Q3. apply (g_sym p s G) in Q3. apply not_eq_sym. now apply (VU (rep s x)).
        * intros l1 l2 H1 H2 H3. exfalso. apply Su. rewrite H1. apply in_or_app. right. now left.
        * intros Hx _. specialize (Q3 Hx Sv). rewrite Pv, andb_false_r in Q3. apply (g_sym p s G) in Q3.
          destruct (VU (rep s x) Q3 ltac:(auto) ltac:(auto) Hx) as [_ H]. rewrite andb_comm in H.
          destruct (prepainted (rep s x) && prepainted u); [auto|]. now apply (g_sym p s1 (r_gr _ _ _ _ D1)).
      + split; auto. split.
        * intros l1 l2 H1 H2 H3. destruct (Q2 l1 l2 H1 H2 H3) as (l & Hl & Hr). exists l. split; auto. rewrite R1, Hr. destruct (Nat.eqb_spec (rep s x) v); congruence.
        * intros Hx Hy. specialize (Q3 Hx Hy). destruct (prepainted _ && prepainted _); auto. apply (r_old _ _ _ _ D1). now apply E0.
    - (* new edges join registers that are their own representatives *)
      rewrite B3 in St. rewrite B4, has_put in Ct. apply orb_false_iff in Ct as [Ct1 Ct]. apply Nat.eqb_neq in Ct1.
      assert (Rt : rep s t = t) by now apply rep_id. assert (Ru : rep s u = u) by now apply rep_id.
      assert (Etv : (t =? v) = false) by (apply Nat.eqb_neq; auto). assert (Euv : (u =? v) = false) by now apply Nat.eqb_neq.
      destruct (g_edge p s1 (r_gr _ _ _ _ D1) _ _ Hxy1) as (_ & _ & _ & PP & _).
      destruct Hxy as [[-> ->]|[-> ->]]; rewrite Rt, Ru, Etv, Euv, PP; (split; [auto|split; [|auto]]); intros l1 l2 H1 _ _; exfalso;
        [apply Su|apply St]; rewrite H1; apply in_or_app; right; now left. }
  assert (Full1 : Full p None s1).
  { split; [apply D1|]. split; auto. split; [apply D1|]. split; auto. rewrite (r_rmoves _ _ _ _ D1). auto. }
  destruct (negb (istrivial p s1 u) && wlfind (wlfreeze s1) u) eqn:Q; injection E as <-; [|auto].
  apply andb_true_iff in Q as [_ Q]. apply wlfind_in in Q. destruct Full1 as ((Wl1 & M1 & C1) & A1 & G1 & Gd1 & L1).
  split; [|exact Cu1]. split; [split; [|split]|].
  - now apply Wl_freeze_spill.
  - apply (Mv_ext p s1); auto.
  - apply (Comp_step p s1 _ u); auto; unfold Placed; fld.
    + intros x Nx [H|[H|H]]; rewrite ?in_snoc; try tauto. right. left. now apply in_remove1_neq.
    + rewrite in_snoc. auto.
  - apply (core_ext p s1); auto. repeat split.
Qed.

(* ---------- coalesce ---------- *)

Lemma coalesce_full s s' : Full p None s -> wlsimp s = [] -> wlmove s <> [] -> coalesce p s = Some s' -> Full p None s'.
Proof.
  intros F Es Hne E. unfold coalesce in E. cbv zeta in E. set (m := last (wlmove s) (mkMv 0 0 0)) in *.
  destruct (popmove_full s m F Hne eq_refl) as (F1 & SC & PM & ND & BW & BA & RM & RS).
  set (s1 := set_moves s (removelast (wlmove s)) (mactive s) (bsdel (wlmoveset s) (m_uid m)) (mactiveset s)) in *.
  pose proof F1 as (I1 & A1 & G1 & D1 & L1).
  assert (Rr : forall x, rep s1 x = rep s x) by reflexivity.
  assert (ND' : forall x, x = m_src m \/ x = m_dst m -> node p (rep s1 x) /\ bshas (coal s1) (rep s1 x) = false /\ ~ In (rep s1 x) (selstk s1) /\ (fixedreg (rep s1 x) = true -> rep s1 x = x)).
  { intros x Hx. pose proof (op_node m x PM Hx) as Nx. split; [|split; [now apply rep_root|split]].
    - destruct (rep_cases p s1 x A1) as [->|(_ & _ & T1 & T2 & T3 & T4 & T5)]; auto. split; auto. split; auto.
      intros P. unfold namable. now rewrite (T4 P).
    - rewrite Rr. now apply RS.
    - intros Hf. destruct (rep_cases p s1 x A1) as [->|(_ & _ & T1 & T2 & T3 & T4 & T5)]; auto. congruence. }
  destruct (ND' (m_src m) (or_introl eq_refl)) as (Ns & Cs & Ss & Fs). destruct (ND' (m_dst m) (or_intror eq_refl)) as (Nd & Cd & Sd & Fd).
  set (u0 := rep s1 (m_src m)) in *. set (v0 := rep s1 (m_dst m)) in *.
  destruct (if prepainted v0 then (v0, u0) else (u0, v0)) as [u v] eqn:Euv.
  assert (NU : node p u /\ bshas (coal s1) u = false /\ ~ In u (selstk s1)) by (destruct (prepainted v0); injection Euv as <- <-; auto).
  assert (NV : node p v /\ bshas (coal s1) v = false /\ ~ In v (selstk s1)) by (destruct (prepainted v0); injection Euv as <- <-; auto).
  destruct NU as (Nu & Cu & Su). destruct NV as (Nv & Cv & Sv).
  assert (TW : forall s', bind (wladd p s1 u) (fun s => wladd p s v) = Some s' -> Full p None s').
  { intros x Hx. destruct (wladd p s1 u) as [s2|] eqn:E2; [|discriminate]. cbn [bind] in Hx.
    destruct (wladd_full s1 u s2 F1 (proj1 Nu) Cu E2) as [F2 (_ & _ & C2 & _)].
    eapply (wladd_full s2 v x F2 (proj1 Nv)); eauto. congruence. }
  destruct (Nat.eqb_spec u v) as [Quv|Quv]; [now apply TW|].
  destruct (constrained s1 u v) eqn:Cn; [now apply TW|].
  assert (Pv : prepainted v = false) by (unfold constrained in Cn; destruct (prepainted v); auto).
  destruct (combinable p s1 u v) eqn:Cb.
  - destruct (combine p s1 u v) as [s2|] eqn:E2; [|discriminate]. cbn [bind] in E.
    assert (Mode : vmode p u = vmode p v).
    { unfold combinable in Cb. destruct (mode_eqb (vmode p u) (vmode p v)) eqn:Q; [|discriminate]. now apply mode_eqb_eq. }
    assert (Fu : fixedreg u = false).
    { destruct (fixedreg u) eqn:Fu; auto. exfalso. destruct (move_frame m PM) as [Q1 Q2].
      destruct (prepainted v0) eqn:Pv0; injection Euv as <- <-.
      - rewrite (Fd Fu) in Fu. specialize (Q2 Fu). unfold u0 in Pv. rewrite (rep_prep p s1 _ A1 Q2) in Pv. congruence.
      - rewrite (Fs Fu) in Fu. specialize (Q1 Fu). unfold v0 in Pv0. rewrite (rep_prep p s1 _ A1 Q1) in Pv0. congruence. }
    assert (T : target p v u).
    { split; [apply Nu|]. split; auto. split; auto. split; [intros Pu; now apply (node_general p u Nu)|apply Nu]. }
    destruct (combine_full s1 u v s2 F1 Es Nu (proj1 Nv) Quv Cu Cv Pv T Su Sv Cn E2) as [F2 Cu2].
    eapply (wladd_full s2 u s' F2 (proj1 Nu)); eauto.
  - assert (Old : forall z, In z (wlsimp s1) \/ In z (selstk s1) -> Some z <> None -> forall x, In x (nth z (rmoves s1) []) -> m_uid x <> m_uid m).
    { intros z Hz Nz x Hx Eq. destruct F as ((Wl & M & C) & _).
      assert (Mr : moverelated s z = true); [|rewrite (w_mv p None s Wl z Hz Nz) in Mr; discriminate].
      apply moverelated_in. exists x. split; [exact Hx|]. unfold enabled. rewrite Eq, (v_wl p s M m); [apply orb_true_r|]. now apply removelast_sel. }
    assert (RM1 : forall x, x = m_src m \/ x = m_dst m -> prepainted (rep s1 x) = true \/ exists m', In m' (nth (rep s1 x) (rmoves s1) []) /\ m_uid m' = m_uid m) by exact RM.
    clear RM RS Rr ND' u0 v0 Euv Ns Cs Ss Fs Nd Cd Sd Fd SC F. clearbody s1 m.
    injection E as <-. destruct I1 as (Wl1 & M1 & C1). split; [split; [|split]|].
    + pose proof (w_mv p None s1 Wl1) as Mr1. destruct Wl1. split; auto. intros z Hz Nz. fld.
      destruct (moverelated (set_moves s1 (wlmove s1) (mactive s1 ++ [m]) (wlmoveset s1) (bsput (mactiveset s1) (m_uid m))) z) eqn:Mr; auto.
      apply moverelated_in in Mr as (x & Hx & Ex). fld. unfold enabled in Ex. fld. rewrite has_put in Ex.
      assert (moverelated s1 z = true); [|rewrite (Mr1 z Hz Nz) in *; discriminate]. apply moverelated_in. exists x. split; auto. unfold enabled.
      pose proof (Old z Hz Nz x Hx). destruct (Nat.eqb_spec (m_uid m) (m_uid x)) as [Eq|Nq]; [congruence|exact Ex].
    + split; fld.
      * rewrite app_assoc, map_app. cbn [map]. apply nodup_snoc; auto. apply (v_nodup p s1 M1).
      * intros x. rewrite app_assoc, in_snoc. intros [H| ->]; auto. now apply (v_prog p s1 M1).
      * apply (v_rprog p s1 M1).
      * apply (v_wl p s1 M1).
      * intros x. rewrite in_snoc, has_put. intros [H| ->]; [rewrite (v_act p s1 M1 x H); apply orb_true_r|now rewrite Nat.eqb_refl].
      * intros x Hx. rewrite has_put, (v_disj p s1 M1 x Hx). destruct (Nat.eqb_spec (m_uid m) x) as [<-|_]; auto. congruence.
      * intros x y. rewrite app_assoc, in_snoc. intros [H| ->] Hy; [now apply (v_rm p s1 M1)|]. now apply RM1.
    + exact C1.
    + apply (core_ext p s1); auto. repeat split.
Qed.

(* ---------- freeze and spill candidates ---------- *)

Lemma in_mremove1 m l x : In x (mremove1 m l) -> In x l.
Proof. induction l as [|y l IH]; cbn; auto. destruct (mv_eqb m y); cbn; intuition. Qed.
Lemma mremove1_sub m l : NoDup (map m_uid l) -> NoDup (map m_uid (mremove1 m l)) /\ (forall x, In x (mremove1 m l) -> m_uid x <> m_uid m).
Proof.
  induction l as [|y l IH]; cbn; intros H; [split; [constructor|intros x []]|]. apply NoDup_cons_iff in H as [H1 H2]. destruct (IH H2) as [I1 I2].
  unfold mv_eqb. destruct (Nat.eqb_spec (m_uid m) (m_uid y)) as [E|E]; cbn.
  - split; auto. intros x Hx Ex. apply H1. rewrite <- E, <- Ex. now apply in_map.
  - split; [|intros x [<-|Hx]; auto]. constructor; auto. intros Hc. apply H1. apply in_map_iff in Hc as (x & Ex & Hx). rewrite <- Ex. apply in_map. eapply in_mremove1; eauto.
Qed.
Lemma nodup_app_l (A : Type) (l1 l2 : list A) : NoDup (l1 ++ l2) -> NoDup l1 /\ NoDup l2 /\ (forall x, In x l1 -> ~ In x l2).
Proof.
  induction l1 as [|x l1 IH]; cbn; intros H; [split; [constructor|auto]|]. apply NoDup_cons_iff in H as [H1 H2]. destruct (IH H2) as (A1 & A2 & A3).
  split; [constructor; auto; intros Hc; apply H1; apply in_or_app; auto|]. split; auto. intros y [<-|Hy]; auto. intros Hc. apply H1. apply in_or_app; auto.
Qed.
Lemma nodup_app_r (A : Type) (l1 l2 : list A) : NoDup l1 -> NoDup l2 -> (forall x, In x l1 -> ~ In x l2) -> NoDup (l1 ++ l2).
Proof.
  induction l1 as [|x l1 IH]; cbn; intros H1 H2 H3; auto. apply NoDup_cons_iff in H1 as [H1 H1']. constructor; auto.
  rewrite in_app_iff. intros [Hc|Hc]; [tauto|]. apply (H3 x); auto.
Qed.

(* deleting a move from both lists *)
Definition dropped (s : st) (m : mv) : st := let '(s1, found) := mldel_active s m in (if found then s1 else mldel_wl s1 m).
Lemma dropped_spec e s m : Inv p e s -> Inv p e (dropped s m) /\ same_core s (dropped s m) /\ enabled (dropped s m) m = false /\
  (forall x, enabled (dropped s m) x = true -> enabled s x = true) /\ wlfreeze (dropped s m) = wlfreeze s /\ deg (dropped s m) = deg s.
Proof.
  intros (Wl & M & C).
  pose proof (v_nodup p s M) as ND. rewrite map_app in ND. apply nodup_app_l in ND as (N1 & N2 & N3).
  assert (Q : exists wm ma ws ms, dropped s m = set_moves s wm ma ws ms /\
    (forall x, In x wm -> In x (wlmove s)) /\ (forall x, In x ma -> In x (mactive s)) /\ NoDup (map m_uid wm) /\ NoDup (map m_uid ma) /\
    (forall x, bshas ws x = true -> bshas (wlmoveset s) x = true) /\ (forall x, bshas ms x = true -> bshas (mactiveset s) x = true) /\
    (forall x, In x wm -> bshas ws (m_uid x) = true) /\ (forall x, In x ma -> bshas ms (m_uid x) = true) /\
    bshas ws (m_uid m) = false /\ bshas ms (m_uid m) = false).
  { unfold dropped, mldel_active. destruct (bshas (mactiveset s) (m_uid m)) eqn:BA.
    - assert (BW : bshas (wlmoveset s) (m_uid m) = false). { destruct (bshas (wlmoveset s) (m_uid m)) eqn:BW; auto. apply (v_disj p s M) in BW. congruence. }
      assert (E : (if existsb (mv_eqb m) (mactive s) then set_moves s (wlmove s) (mremove1 m (mactive s)) (wlmoveset s) (bsdel (mactiveset s) (m_uid m))
         else mldel_wl (set_moves s (wlmove s) (mremove1 m (mactive s)) (wlmoveset s) (bsdel (mactiveset s) (m_uid m))) m) =
         set_moves s (wlmove s) (mremove1 m (mactive s)) (wlmoveset s) (bsdel (mactiveset s) (m_uid m))).
      { destruct (existsb _ _); auto. unfold mldel_wl. fld. now rewrite BW. }
      rewrite E. do 4 eexists. split; [reflexivity|]. destruct (mremove1_sub m (mactive s) N2) as [K1 K2].
      repeat split; auto.
      + intros; eapply in_mremove1; eauto.
      + intros x. rewrite has_del. intros H. now apply andb_true_iff in H.
      + apply (v_wl p s M).
      + intros x Hx. rewrite has_del, (v_act p s M x (in_mremove1 _ _ _ Hx)). cbn [andb]. apply negb_true_iff, Nat.eqb_neq. apply not_eq_sym. auto.
      + rewrite has_del, Nat.eqb_refl. apply andb_false_r.
    - unfold mldel_wl. destruct (bshas (wlmoveset s) (m_uid m)) eqn:BW.
      + destruct (mremove1_sub m (wlmove s) N1) as [K1 K2]. do 4 eexists. split; [reflexivity|]. repeat split; auto.
        * intros; eapply in_mremove1; eauto.
        * intros x. rewrite has_del. intros H. now apply andb_true_iff in H.
        * intros x Hx. rewrite has_del, (v_wl p s M x (in_mremove1 _ _ _ Hx)). cbn [andb]. apply negb_true_iff, Nat.eqb_neq. apply not_eq_sym. auto.
        * apply (v_act p s M).
        * rewrite has_del, Nat.eqb_refl. apply andb_false_r.
      + exists (wlmove s), (mactive s), (wlmoveset s), (mactiveset s). rewrite set_moves_id. repeat split; auto. apply (v_wl p s M). apply (v_act p s M). }
  destruct Q as (wm & ma & ws & ms & -> & Q1 & Q2 & Q3 & Q4 & Q5 & Q6 & Q7 & Q8 & Q9 & Q10).
  assert (En : forall x, enabled (set_moves s wm ma ws ms) x = true -> enabled s x = true).
  { intros x. unfold enabled. fld. rewrite !orb_true_iff. intros [H|H]; auto. }
  split; [|split; [repeat split|split; [|auto]]].
  2: { unfold enabled. fld. now rewrite Q9, Q10. }
  split; [|split].
  - destruct Wl. split; fld; auto. intros z Hz Nz. apply (moverelated_mono s); auto.
  - split; fld.
    + rewrite map_app. apply nodup_app_r; auto. intros x Hx Hc. apply in_map_iff in Hx as (a & Ea & Ha). apply in_map_iff in Hc as (b & Eb & Hb).
      apply (N3 x); [rewrite <- Ea; apply in_map; auto|rewrite <- Eb; apply in_map; auto].
    + intros x Hx. apply (v_prog p s M). apply in_app_iff in Hx. apply in_app_iff. destruct Hx; auto.
    + apply (v_rprog p s M).
    + auto. + auto.
    + intros x Hx. destruct (bshas ms x) eqn:E; auto. apply Q6 in E. apply Q5 in Hx. apply (v_disj p s M) in Hx. congruence.
    + intros x y Hx Hy. apply (v_rm p s M x y); auto. apply in_app_iff in Hx. apply in_app_iff. destruct Hx; auto.
  - exact C.
Qed.

Lemma freeze1_full e u s m s' : Full p e s -> freeze1 p u (Some s) m = Some s' ->
  Full p e s' /\ same_core s s' /\ enabled s' m = false /\ (forall x, enabled s' x = true -> enabled s x = true).
Proof.
  intros (I & A & G & D & L) E. unfold freeze1 in E. cbn [bind] in E. cbv zeta in E. set (v := if _ =? _ then _ else _) in E.
  assert (E' : (let s1 := dropped s m in if negb (moverelated s1 v) && istrivial p s1 v then if wlfind (wlfreeze s1) v then Some (put_simp (del_freeze s1 v) v) else None else Some s1) = Some s').
  { unfold dropped. cbv zeta. destruct (mldel_active s m) as [sa fd]. exact E. }
  clear E. cbv zeta in E'. destruct (dropped_spec e s m I) as (I1 & SC & D1 & D2 & _). set (s1 := dropped s m) in *.
  destruct (core_ext p s s1 SC A G D L) as (A1 & G1 & Gd1 & L1).
  destruct (negb (moverelated s1 v) && istrivial p s1 v) eqn:Q.
  - destruct (wlfind (wlfreeze s1) v) eqn:F; [|discriminate]. injection E' as <-. apply wlfind_in in F. apply andb_true_iff in Q as [Q _]. apply negb_true_iff in Q.
    assert (SC2 : same_core s1 (put_simp (del_freeze s1 v) v)) by (repeat split).
    split; [|split; [exact (same_core_trans _ _ _ SC SC2)|split; [exact D1|exact D2]]].
    split; [|exact (core_ext p s1 _ SC2 A1 G1 Gd1 L1)]. destruct I1 as (Wl1 & M1 & C1). split; [|split].
    + apply (Wl_to_simp p e s1); auto.
    + apply (Mv_ext p s1); auto.
    + apply (Comp_step p s1 _ v); auto; unfold Placed; fld.
      * intros x Nx [H|[H|H]]; rewrite ?in_snoc; try tauto. right. left. now apply in_remove1_neq.
      * rewrite in_snoc. auto.
  - injection E' as <-. unfold Full. auto 10.
Qed.

Lemma freezes_full e u : forall l s s', Full p e s -> fold_left (freeze1 p u) l (Some s) = Some s' ->
  Full p e s' /\ same_core s s' /\ (forall m, In m l -> enabled s' m = false) /\ (forall x, enabled s' x = true -> enabled s x = true).
Proof.
  assert (DN : forall l, fold_left (freeze1 p u) l None = None) by (induction l; auto).
  induction l as [|m l IH]; intros s s' F E; cbn [fold_left] in E.
  - injection E as <-. split; auto. split; [apply same_core_refl|]. split; [intros m []|auto].
  - destruct (freeze1 p u (Some s) m) as [s1|] eqn:E1; [|rewrite DN in E; discriminate].
    destruct (freeze1_full e u s m s1 F E1) as (F1 & S1 & D1 & N1). destruct (IH s1 s' F1 E) as (F2 & S2 & D2 & N2).
    split; auto. split; [exact (same_core_trans _ _ _ S1 S2)|]. split; auto. intros x [<-|Hx]; auto.
    destruct (enabled s' m) eqn:Q; auto. apply N2 in Q. congruence.
Qed.

Lemma freezemoves_full u s s' : Full p (Some u) s -> freezemoves p s u = Some s' -> Full p None s'.
Proof.
  intros F E. unfold freezemoves in E. destruct (freezes_full (Some u) u _ s s' F E) as (F1 & S1 & D1 & N1).
  destruct F1 as ((Wl1 & M1 & C1) & A1 & R). split; auto. split; auto. destruct Wl1. split; auto.
  intros z Hz _. destruct (Nat.eq_dec z u) as [->|Nz]; [|apply w_mv; auto; congruence].
  destruct (moverelated s' u) eqn:Q; auto. apply moverelated_in in Q as (m & Hm & Em). exfalso. rewrite D1 in Em; [discriminate|].
  unfold nodemoves. apply filter_In. destruct S1 as (_ & _ & _ & _ & _ & S1). rewrite S1 in Hm. auto.
Qed.

Lemma Wl_weaken u s : Wl p None s -> Wl p (Some u) s.
Proof. intros []. split; auto. intros z Hz _. apply w_mv; auto. discriminate. Qed.

Lemma to_simp_full s u s1 : Full p None s -> (s1 = del_spill s u /\ In u (wlspill s)) \/ (s1 = del_freeze s u /\ In u (wlfreeze s)) -> Full p (Some u) (put_simp s1 u).
Proof.
  intros ((Wl1 & M1 & C1) & A1 & G1 & D1 & L1) H.
  assert (SC : same_core s (put_simp s1 u)) by (destruct H as [[-> _]|[-> _]]; repeat split).
  split; [|exact (core_ext p s _ SC A1 G1 D1 L1)]. split; [|split].
  - apply (Wl_to_simp p (Some u) s); [now apply Wl_weaken|tauto|]. congruence.
  - apply (Mv_ext p s); auto; destruct H as [[-> _]|[-> _]]; auto.
  - apply (Comp_step p s _ u); auto; unfold Placed; destruct H as [[-> _]|[-> _]]; fld.
    + intros x Nx [H|[H|[H|H]]]; rewrite ?in_snoc; try tauto. right. right. left. now apply in_remove1_neq.
    + intros x Nx [H|[H|H]]; rewrite ?in_snoc; try tauto. right. left. now apply in_remove1_neq.
    + rewrite in_snoc. auto.
    + rewrite in_snoc. auto.
Qed.

Lemma remove1_last l : forall u, NoDup (l ++ [u]) -> remove1 u (l ++ [u]) = l.
Proof.
  induction l as [|x l IH]; intros u H; cbn; [now rewrite Nat.eqb_refl|]. cbn in H. apply NoDup_cons_iff in H as [H1 H2].
  destruct (Nat.eqb_spec u x) as [->|N]; [exfalso; apply H1; apply in_snoc; auto|]. now rewrite IH.
Qed.
Lemma upd_upd (A : Type) (l : list A) : forall i x y, upd (upd l i x) i y = upd l i y.
Proof. induction l as [|a l IH]; intros [|i] x y; cbn; auto. now rewrite IH. Qed.

Lemma freeze_full s s' : Full p None s -> wlfreeze s <> [] -> freeze p s = Some s' -> Full p None s'.
Proof.
  intros F Hne E. unfold freeze in E. cbv zeta in E. set (l := last (wlfreeze s) 0) in *.
  apply (freezemoves_full l _ s') in E; auto.
  assert (El : wlfreeze s = removelast (wlfreeze s) ++ [l]) by now apply app_removelast_last.
  assert (Q : put_simp (set_wl s (wlsimp s) (removelast (wlfreeze s)) (wlspill s) (selstk s) (place s)) l = put_simp (del_freeze s l) l).
  { unfold put_simp, del_freeze. fld. unfold set_wl. fld. rewrite upd_upd. rewrite El at 2. rewrite remove1_last; auto. rewrite <- El.
    destruct F as ((Wl1 & _) & _). apply (w_freeze p None s Wl1). }
  rewrite Q. apply (to_simp_full s); auto. right. split; auto. rewrite El. apply in_snoc. auto.
Qed.

Lemma selspill_full should never s s' : Full p None s -> selspill p should never s = Some s' -> Full p None s'.
Proof.
  intros F E. unfold selspill in E. cbv zeta in E. set (m := match find should (wlspill s) with Some m => Some m | None => _ end) in E.
  assert (Hm : forall x, m = Some x -> In x (wlspill s)).
  { intros x. unfold m. destruct (find should (wlspill s)) eqn:Q; intros H; [injection H as <-|]; eapply find_some; eauto. }
  destruct m as [x|]; [|discriminate]. cbn [bind] in E. apply (freezemoves_full x _ s') in E; auto. apply (to_simp_full s); auto.
Qed.

Lemma step_full should never s s' : Full p None s -> finished s = false -> step p should never s = Some s' -> Full p None s'.
Proof.
  intros F Fin E. unfold step in E. unfold finished in Fin. destruct (wlsimp s) eqn:E1.
  - destruct (wlmove s) eqn:E2.
    + destruct (wlfreeze s) eqn:E3.
      * now apply (selspill_full should never s).
      * apply (freeze_full s); auto. congruence.
    + apply (coalesce_full s); auto. congruence.
  - apply (simp_full p W s); auto. congruence.
Qed.

Lemma loop_full fuel should never : forall s s', Full p None s -> loop p fuel should never s = Done s' -> Full p None s' /\ finished s' = true.
Proof.
  induction fuel as [|fuel IH]; intros s s' F E; cbn [loop] in E; destruct (finished s) eqn:Fin; try discriminate; try (injection E as <-; auto).
  destruct (step p should never s) as [s1|] eqn:E1; [|discriminate]. eapply IH; [|exact E]. eapply step_full; eauto.
Qed.

End Steps.
