(* Register allocator: the alias map, the interference graph and the select stack through a round. *)
From Verif Require Import Base Cfg_Reach Ra_Spec Ra_Model Ra_Live Ra_Tables Ra_Wl.
Import Ra_Spec Ra_Model.

Lemma prep_virt r : prepainted r = false <-> nphys <= r.
Proof. unfold prepainted, Nreg, nphys. apply Nat.ltb_ge. Qed.
Lemma prep_phys r : prepainted r = true <-> r < nphys.
Proof. unfold prepainted, Nreg, nphys. apply Nat.ltb_lt. Qed.
Lemma rclass_eqb_eq a b : rclass_eqb a b = true <-> a = b.
Proof. destruct a, b; split; intros H; try discriminate H; auto. Qed.

(* ---------- chains of aliases ---------- *)

Lemma follow_stop al d x : nth x al None = None -> follow d al x = x.
Proof. intros H. destruct d; cbn; auto. now rewrite H. Qed.
Lemma follow_more al d : forall x k, nth (follow d al x) al None = None -> follow (d + k) al x = follow d al x.
Proof.
  induction d as [|d IH]; intros x k H; cbn [follow Nat.add] in *.
  - now apply follow_stop.
  - destruct (nth x al None) as [y|] eqn:E; auto.
Qed.
Lemma follow_upd al u v : v < length al -> nth u al None = None -> nth v al None = None -> u <> v ->
  forall d x, nth (follow d al x) al None = None ->
    follow (S d) (upd al v (Some u)) x = if follow d al x =? v then u else follow d al x.
Proof.
  intros Lv Eu Ev Ne. assert (Eu' : nth u (upd al v (Some u)) None = None) by (rewrite nth_upd_other; auto).
  assert (B : forall d x, nth x al None = None -> follow (S d) (upd al v (Some u)) x = if x =? v then u else x).
  { intros d x H. destruct (Nat.eqb_spec x v) as [->|N].
    - cbn [follow]. rewrite nth_upd_same by auto. now apply follow_stop.
    - apply follow_stop. rewrite nth_upd_other; auto. }
  induction d as [|d IH]; intros x H.
  - cbn [follow] in H |- *. apply (B 0); auto.
  - cbn [follow] in H. destruct (nth x al None) as [y|] eqn:E.
    + assert (x <> v) by congruence. transitivity (follow (S d) (upd al v (Some u)) y).
      * change (follow (S (S d)) (upd al v (Some u)) x) with (match nth x (upd al v (Some u)) None with Some x => follow (S d) (upd al v (Some u)) x | None => x end).
        rewrite nth_upd_other, E; auto.
      * rewrite (IH y H). cbn [follow]. now rewrite E.
    + rewrite (B (S d) x E). cbn [follow]. now rewrite E.
Qed.

Section Core.
Variable p : prog.
Hypothesis W : wf_prog p.
Notation nreg := (nregs p).
Notation U := (Ra_Wl.U p).
Notation rep := (getalias p).

(* what a register that others are merged into is like *)
Definition target (v u : nat) : Prop :=
  u < nreg /\ vmode p u = vmode p v /\ fixedreg u = false /\ (prepainted u = true -> general u = true) /\ (prepainted u = false -> U u).

Definition uncoal (s : st) : nat := length (filter (fun x => negb (bshas (coal s) x)) (seq 0 nreg)).
Record Al (s : st) : Prop := {
  a_len : length (alias s) = nreg;
  a_coal : forall v, bshas (coal s) v = true <-> nth v (alias s) None <> None;
  a_tgt : forall v u, nth v (alias s) None = Some u -> v < nreg /\ prepainted v = false /\ target v u;
  a_root : exists d, d + uncoal s <= nreg /\ forall x, nth (follow d (alias s) x) (alias s) None = None }.

Lemma uncoalesced s v : Al s -> (bshas (coal s) v = false <-> nth v (alias s) None = None).
Proof.
  intros A. pose proof (a_coal s A v) as H. destruct (nth v (alias s) None), (bshas (coal s) v); split; intros E; auto; try discriminate.
  - exfalso. assert (false = true) by (apply H; discriminate). discriminate.
  - exfalso. now apply H.
Qed.

Lemma rep_root s x : Al s -> bshas (coal s) (rep s x) = false.
Proof.
  intros A. apply uncoalesced; auto. destruct (a_root s A) as (d & L & R). unfold getalias.
  replace nreg with (d + (nreg - d)) by lia. rewrite follow_more; auto.
Qed.
Lemma rep_id s x : Al s -> bshas (coal s) x = false -> rep s x = x.
Proof. intros A H. apply follow_stop. now apply uncoalesced. Qed.
Lemma rep_prep s x : Al s -> prepainted x = true -> rep s x = x.
Proof.
  intros A H. apply follow_stop. destruct (nth x (alias s) None) as [u|] eqn:E; auto. destruct (a_tgt s A x u E) as (_ & F & _). congruence.
Qed.

Lemma rep_cases s x : Al s -> rep s x = x \/ (x < nreg /\ prepainted x = false /\ target x (rep s x)).
Proof.
  intros A. assert (H : forall d x, follow d (alias s) x = x \/ (x < nreg /\ prepainted x = false /\ target x (follow d (alias s) x))); [|apply H].
  clear x. intros d. induction d as [|d IH]; intros x; cbn [follow]; auto.
  destruct (nth x (alias s) None) as [y|] eqn:E; auto. right. destruct (a_tgt s A x y E) as (L & P & T). split; auto. split; auto.
  destruct (IH y) as [->|(Ly & Py & Ty)]; auto. destruct T as (T1 & T2 & T3 & T4 & T5). destruct Ty as (Y1 & Y2 & Y3 & Y4 & Y5).
  unfold target. rewrite Y2. auto.
Qed.
Lemma rep_lt s x : Al s -> x < nreg -> rep s x < nreg.
Proof. intros A H. destruct (rep_cases s x A) as [->|(_ & _ & T & _)]; auto. Qed.
Lemma rep_mode s x : Al s -> vmode p (rep s x) = vmode p x.
Proof. intros A. destruct (rep_cases s x A) as [->|(_ & _ & _ & T & _)]; auto. Qed.

Lemma rep_ext s s' x : alias s' = alias s -> rep s' x = rep s x.
Proof. unfold getalias. now intros ->. Qed.
Lemma Al_ext s s' : alias s' = alias s -> coal s' = coal s -> Al s -> Al s'.
Proof. intros E1 E2 []. split; unfold uncoal in *; rewrite ?E1, ?E2; auto. Qed.

(* merging v into u *)
Definition merge (s : st) (u v : nat) : st := set_alias s (bsput (coal s) v) (upd (alias s) v (Some u)).
Lemma merge_al s u v : Al s -> u < nreg -> v < nreg -> u <> v -> bshas (coal s) u = false -> bshas (coal s) v = false ->
  prepainted v = false -> target v u ->
  Al (merge s u v) /\ forall x, rep (merge s u v) x = if rep s x =? v then u else rep s x.
Proof.
  intros A Lu Lv Ne Cu Cv Pv T. pose proof (a_len s A) as L.
  pose proof (proj1 (uncoalesced s u A) Cu) as Eu. pose proof (proj1 (uncoalesced s v A) Cv) as Ev.
  destruct (a_root s A) as (d & Hd & R).
  assert (C : uncoal (merge s u v) < uncoal s).
  { unfold uncoal, merge. fld. apply (filter_length_lt _ _ _ _ v).
    - intros x _ H. apply negb_true_iff in H. rewrite has_put in H. apply orb_false_iff in H as [_ H]. now rewrite H.
    - apply in_seq. lia.
    - rewrite has_put, Nat.eqb_refl. reflexivity.
    - now rewrite Cv. }
  assert (F : forall x, follow (S d) (alias (merge s u v)) x = if follow d (alias s) x =? v then u else follow d (alias s) x).
  { intros x. unfold merge. fld. apply follow_upd; auto. lia. }
  assert (R' : forall x, nth (follow (S d) (alias (merge s u v)) x) (alias (merge s u v)) None = None).
  { intros x. rewrite F. unfold merge. fld. destruct (Nat.eqb_spec (follow d (alias s) x) v) as [E|E]; rewrite nth_upd_other; auto. }
  split.
  - split.
    + unfold merge. fld. now rewrite upd_length.
    + intros x. unfold merge. fld. rewrite has_put, nth_upd, L. destruct (Nat.eqb_spec v x) as [->|N]; cbn [orb andb].
      * apply Nat.ltb_lt in Lv. rewrite Lv. split; [discriminate|auto].
      * apply (a_coal s A).
    + intros x y. unfold merge. fld. rewrite nth_upd, L. destruct (Nat.eqb_spec v x) as [->|N]; cbn [andb]; [|apply (a_tgt s A)].
      pose proof Lv as Lv'. apply Nat.ltb_lt in Lv'. rewrite Lv'. intros E. injection E as <-. auto.
    + exists (S d). split; [lia|]. exact R'.
  - intros x. unfold getalias. replace nreg with (S d + (nreg - S d)) by lia. rewrite follow_more by apply R'. rewrite F.
    replace (S d + (nreg - S d)) with (d + (nreg - d)) by lia. now rewrite (follow_more (alias s)) by apply R.
Qed.

(* ---------- the graph ---------- *)

Definition edge (s : st) (u v : nat) : Prop := gbhasedge s u v = true.
(* registers that may become nodes *)
Definition node (u : nat) : Prop := u < nreg /\ (prepainted u = true -> namable u = true) /\ (prepainted u = false -> U u).
Record Gr (s : st) : Prop := {
  g_len : length (gb s) = nreg /\ length (adj s) = nreg;
  g_sym : forall u v, edge s u v -> edge s v u;
  g_edge : forall u v, edge s u v -> node u /\ u <> v /\ rcls p u = rcls p v /\ prepainted u && prepainted v = false /\ fixedreg u = false;
  g_adj : forall u v, u < nreg -> prepainted u = false -> (In v (nth u (adj s) []) <-> edge s u v) }.

Lemma node_general u : node u -> prepainted u = true -> fixedreg u = false -> general u = true.
Proof.
  intros (_ & N & _) P F. specialize (N P). unfold namable in N. rewrite framereg_fixed, F in N. now rewrite orb_false_r in N.
Qed.

Lemma rowhas_gput g u v a b : u < length g -> v < length g ->
  rowhas (gput g u v) a b = rowhas g a b || ((a =? u) && (b =? v)) || ((a =? v) && (b =? u)).
Proof.
  intros Hu Hv. unfold rowhas, gput. cbv zeta. rewrite nth_upd, upd_length.
  destruct (Nat.eqb_spec v b) as [->|Nv]; cbn [andb].
  - apply Nat.ltb_lt in Hv. rewrite Hv, has_put, nth_upd. apply Nat.ltb_lt in Hv.
    rewrite (Nat.eqb_refl b), (Nat.eqb_sym u a).
    destruct (Nat.eqb_spec u b) as [->|Nu]; cbn [andb].
    + apply Nat.ltb_lt in Hv. rewrite Hv, has_put, !Nat.eqb_refl, (Nat.eqb_sym b a). destruct (a =? b), (bshas _ a); reflexivity.
    + destruct (Nat.eqb_spec b u); [congruence|]. rewrite andb_true_r, andb_false_r, orb_false_r. now rewrite orb_comm.
  - rewrite nth_upd. destruct (Nat.eqb_spec b v) as [->|_]; [congruence|]. rewrite andb_false_r, orb_false_r.
    destruct (Nat.eqb_spec u b) as [->|Nu]; cbn [andb].
    + apply Nat.ltb_lt in Hu. rewrite Hu, has_put, Nat.eqb_refl, andb_true_r, (Nat.eqb_sym v a). now rewrite orb_comm.
    + destruct (Nat.eqb_spec b u); [congruence|]. now rewrite andb_false_r, orb_false_r.
Qed.
Lemma gput_length g u v : length (gput g u v) = length g.
Proof. unfold gput. cbv zeta. now rewrite !upd_length. Qed.

Lemma in_alput a u v w x : u < length a -> In x (nth w (alput a u v) []) <-> In x (nth w a []) \/ (w = u /\ x = v).
Proof.
  intros H. unfold alput. rewrite nth_upd. destruct (Nat.eqb_spec u w) as [->|N]; cbn [andb].
  - apply Nat.ltb_lt in H. rewrite H, in_snoc. tauto.
  - split; auto. intros [?|[? _]]; auto. congruence.
Qed.

Definition allowed (u v : nat) : Prop :=
  u <> v /\ fixedreg u = false /\ fixedreg v = false /\ rcls p u = rcls p v /\ prepainted u && prepainted v = false.

Lemma addedge_spec s u v : Gr s -> node u -> node v ->
  Gr (addedge p s u v) /\
  (exists g a d, addedge p s u v = set_graph s g a d) /\
  (forall a b, edge s a b -> edge (addedge p s u v) a b) /\
  (forall a b, edge (addedge p s u v) a b -> edge s a b \/ (allowed u v /\ ((a = u /\ b = v) \/ (a = v /\ b = u)))) /\
  (allowed u v -> edge (addedge p s u v) u v) /\
  (forall w x, In x (nth w (adj s) []) -> In x (nth w (adj (addedge p s u v)) [])).
Proof.
  intros G Nu Nv. destruct (g_len s G) as [L1 L2]. pose proof Nu as (Hu & _). pose proof Nv as (Hv & _).
  assert (ID : (allowed u v -> edge s u v) -> 
    Gr s /\ (exists g a d, s = set_graph s g a d) /\ (forall a b, edge s a b -> edge s a b) /\
    (forall a b, edge s a b -> edge s a b \/ (allowed u v /\ ((a = u /\ b = v) \/ (a = v /\ b = u)))) /\ (allowed u v -> edge s u v) /\
    (forall w x, In x (nth w (adj s) []) -> In x (nth w (adj s) []))).
  { intros H. split; [exact G|]. split; [exists (gb s), (adj s), (deg s); destruct s; reflexivity|]. auto 10. }
  unfold addedge. destruct ((u =? v) || gbhasedge s u v) eqn:C0.
  { apply ID. intros (N & _). apply orb_true_iff in C0 as [C0|C0]; auto. apply Nat.eqb_eq in C0. congruence. }
  apply orb_false_iff in C0 as [C0 C0']; apply Nat.eqb_neq in C0.
  destruct (fixedreg u) eqn:C1. { apply ID. intros (_ & H & _). congruence. }
  destruct (fixedreg v) eqn:C2. { apply ID. intros (_ & _ & H & _). congruence. }
  destruct (rclass_eqb (rcls p u) (rcls p v)) eqn:C3; cbn [negb].
  2: { apply ID. intros (_ & _ & _ & H & _). rewrite H in C3. assert (rclass_eqb (rcls p v) (rcls p v) = true) by now apply rclass_eqb_eq. congruence. }
  apply rclass_eqb_eq in C3.
  destruct (prepainted u && prepainted v) eqn:C4. { apply ID. intros (_ & _ & _ & _ & H). congruence. }
  clear ID. cbv zeta. set (g := gput (gput (gb s) u v) v u).
  assert (E : forall a b, rowhas g a b = gbhasedge s a b || (((a =? u) && (b =? v)) || ((a =? v) && (b =? u)))).
  { intros a b. unfold g. rewrite !rowhas_gput by (rewrite ?gput_length; lia). unfold gbhasedge.
    destruct (rowhas (gb s) a b), ((a =? u) && (b =? v)), ((a =? v) && (b =? u)); reflexivity. }
  assert (E' : forall a b, rowhas g a b = true <-> edge s a b \/ ((a = u /\ b = v) \/ (a = v /\ b = u))).
  { intros a b. rewrite E, !orb_true_iff, !andb_true_iff, !Nat.eqb_eq. unfold edge. tauto. }
  assert (AL : allowed u v) by (unfold allowed; tauto).
  set (X := if prepainted u then (adj s, deg s) else (alput (adj s) u v, upd (deg s) u (nth u (deg s) 0 + degreechange g v u)%Z)).
  assert (X1 : length (fst X) = nreg) by (unfold X; destruct (prepainted u); cbn [fst]; auto; unfold alput; now rewrite upd_length).
  assert (X2 : forall w x, In x (nth w (fst X) []) <-> In x (nth w (adj s) []) \/ (prepainted u = false /\ w = u /\ x = v)).
  { intros w x. unfold X. destruct (prepainted u); cbn [fst]; [intuition congruence|]. rewrite in_alput by lia. tauto. }
  destruct X as [a d] eqn:EX. cbn [fst] in X1, X2.
  set (Y := if prepainted v then (a, d) else _).
  assert (Y1 : length (fst Y) = nreg) by (unfold Y; destruct (prepainted v); cbn [fst]; auto; unfold alput; now rewrite upd_length).
  assert (Y2 : forall w x, In x (nth w (fst Y) []) <-> In x (nth w (adj s) []) \/ (prepainted u = false /\ w = u /\ x = v) \/ (prepainted v = false /\ w = v /\ x = u)).
  { intros w x. unfold Y. destruct (prepainted v); cbn [fst]; [rewrite X2; intuition congruence|]. rewrite in_alput, X2 by lia. tauto. }
  destruct Y as [a' d'] eqn:EY. cbn [fst] in Y1, Y2. clear EX EY X1 X2.
  assert (EE : forall a b, edge (set_graph s g a' d') a b <-> edge s a b \/ ((a = u /\ b = v) \/ (a = v /\ b = u))) by (intros; apply E').
  split; [|split; [|split; [|split; [|split]]]].
  - split; fld.
    + split; auto. unfold g. now rewrite !gput_length.
    + intros x y H. apply EE in H. apply EE. destruct H as [H|H]; [left; now apply (g_sym s G)|tauto].
    + intros x y H. apply EE in H as [H|[[-> ->]|[-> ->]]]; [now apply (g_edge s G)| |].
      * repeat split; auto; apply Nu.
      * rewrite andb_comm. repeat split; auto; apply Nv.
    + intros x y Hx Px. rewrite Y2. etransitivity; [|symmetry; apply EE]. rewrite (g_adj s G x y Hx Px). intuition (subst; congruence).
  - exists g, a', d'. reflexivity.
  - intros x y H. apply EE. auto.
  - intros x y H. apply EE in H. tauto.
  - intros _. apply EE. auto.
  - intros w x H. fld. apply Y2. auto.
Qed.

(* ---------- the colouring invariant ---------- *)

Definition Good (s : st) : Prop := forall x y, edge s x y ->
  rep s x <> rep s y /\
  (forall l1 l2, selstk s = l1 ++ rep s y :: l2 -> ~ In (rep s y) l1 -> ~ In (rep s x) l1 ->
     exists l, In l (nth (rep s y) (adj s) []) /\ rep s l = rep s x) /\
  (~ In (rep s x) (selstk s) -> ~ In (rep s y) (selstk s) ->
     if prepainted (rep s x) && prepainted (rep s y) then colourmap (rep s x) <> colourmap (rep s y) else edge s (rep s x) (rep s y)).

Definition Full (e : option nat) (s : st) : Prop :=
  Inv p e s /\ Al s /\ Gr s /\ Good s /\ length (rmoves s) = nreg.

Lemma Gr_ext s s' : gb s' = gb s -> adj s' = adj s -> Gr s -> Gr s'.
Proof.
  intros E1 E2 []. assert (EE : forall a b, edge s' a b <-> edge s a b) by (intros; unfold edge, gbhasedge; now rewrite E1).
  split; rewrite ?E1, ?E2; auto.
  - intros u v. rewrite !EE. apply g_sym0.
  - intros u v. rewrite EE. apply g_edge0.
  - intros u v. rewrite EE. apply g_adj0.
Qed.
Lemma Good_ext s s' : gb s' = gb s -> adj s' = adj s -> alias s' = alias s -> selstk s' = selstk s -> Good s -> Good s'.
Proof.
  intros E1 E2 E3 E4 H. assert (EE : forall a b, edge s' a b <-> edge s a b) by (intros; unfold edge, gbhasedge; now rewrite E1).
  assert (RR : forall x, rep s' x = rep s x) by (intros; now apply rep_ext).
  intros x y Hxy. rewrite !RR, E2, E4. apply EE in Hxy. destruct (H x y Hxy) as (A & B & C). split; auto. split.
  - intros l1 l2 H1 H2 H3. destruct (B l1 l2 H1 H2 H3) as (l & Hl & Hr). exists l. now rewrite RR.
  - intros H1 H2. specialize (C H1 H2). destruct (prepainted _ && prepainted _); auto. now apply EE.
Qed.
Lemma core_ext s s' : same_core s s' -> Al s -> Gr s -> Good s -> length (rmoves s) = nreg -> Al s' /\ Gr s' /\ Good s' /\ length (rmoves s') = nreg.
Proof.
  intros (E1 & E2 & E3 & E4 & E5 & E6) A G D L. split; [now apply (Al_ext s)|]. split; [now apply (Gr_ext s)|].
  split; [now apply (Good_ext s)|congruence].
Qed.

Lemma for_avail_ind (P : st -> Prop) f : (forall s t s', P s -> adjavail s t = true -> f s t = Some s' -> P s') ->
  forall l s s', P s -> for_avail f s l = Some s' -> P s'.
Proof.
  intros H. assert (D : forall l, fold_left (fun o t => bind o (fun s => if adjavail s t then f s t else Some s)) l None = None).
  { induction l; auto. }
  unfold for_avail. induction l as [|t l IH]; intros s s' Ps E; cbn [fold_left] in E.
  - injection E as <-. auto.
  - cbn [bind] in E. destruct (adjavail s t) eqn:A; [|eapply IH; eauto].
    destruct (f s t) as [s1|] eqn:F; [|rewrite D in E; discriminate]. eapply IH; [eapply H; eauto|exact E].
Qed.

Lemma decdegree_full e s m s' : Full e s -> decdegree p s m = Some s' -> Full e s' /\ same_core s s'.
Proof.
  intros (I & A & G & D & L) E. destruct (decdegree_inv p W e s m s' I E) as [I' C]. split; auto. split; auto.
  exact (core_ext s s' C A G D L).
Qed.

Lemma sel_rep s x : Inv p None s -> Al s -> In x (selstk s) -> rep s x = x.
Proof. intros (Wl & _) A H. apply rep_id; auto. eapply (w_rng p None s Wl); eauto. Qed.

(* ---------- simplify ---------- *)

Lemma removelast_sel (A : Type) (l : list A) d : l <> [] -> In (last l d) l.
Proof. intros H. rewrite (app_removelast_last d H) at 2. apply in_or_app. right. now left. Qed.

Lemma push_full s : Full None s -> wlsimp s <> [] ->
  let l := last (wlsimp s) 0 in
  Full None (put_sel (set_wl s (removelast (wlsimp s)) (wlfreeze s) (wlspill s) (selstk s) (place s)) l).
Proof.
  intros ((Wl & M & C) & A & G & D & L) Hne l. set (s' := put_sel _ l).
  assert (Hl : In l (wlsimp s)) by now apply removelast_sel.
  destruct (w_rng p None s Wl l ltac:(auto)) as (R1 & R2 & R3). pose proof (w_len p None s Wl) as PL.
  destruct (w_spill p None s Wl) as [S1 S2]. destruct (w_freeze p None s Wl) as [F1 F2].
  assert (Nl : nth l (place s) Pnull = Psimp \/ nth l (place s) Pnull = Psel) by now apply (w_simp p None s Wl).
  assert (PP : forall z, z < nreg -> nth z (upd (place s) l Psel) Pnull = if l =? z then Psel else nth z (place s) Pnull).
  { intros z Hz. rewrite nth_upd, PL. destruct (Nat.eqb_spec l z) as [->|N]; cbn [andb]; auto. apply Nat.ltb_lt in Hz. now rewrite Hz. }
  assert (RG : forall z, In z (wlsimp s) \/ In z (wlfreeze s) \/ In z (wlspill s) \/ In z (selstk s) -> z < nreg) by (intros z Hz; now apply (w_rng p None s Wl)).
  assert (Wl' : Ra_Wl.Wl p None s').
  { unfold s'. split; fld.
    - now rewrite upd_length.
    - split; auto. intros z Hz. rewrite PP by auto. destruct (Nat.eqb_spec l z) as [<-|N]; auto. apply S2 in Hz. destruct Nl; congruence.
    - split; auto. intros z Hz. rewrite PP by auto. destruct (Nat.eqb_spec l z) as [<-|N]; auto. apply F2 in Hz. destruct Nl; congruence.
    - intros z Hz. apply in_removelast in Hz. rewrite PP by auto. destruct (l =? z); auto. now apply (w_simp p None s Wl).
    - intros z Hz. rewrite PP, in_snoc by auto. destruct (Nat.eqb_spec l z) as [<-|N]; [tauto|]. rewrite (w_sel p None s Wl z Hz). intuition congruence.
    - intros z Hz. rewrite in_snoc in Hz. apply (w_rng p None s Wl). destruct Hz as [Hz|[Hz|[Hz|[Hz| ->]]]]; auto. left. now apply in_removelast.
    - intros z Hz Ne. transitivity (moverelated s z); [now apply moverelated_ext|]. rewrite in_snoc in Hz. apply (w_mv p None s Wl); auto.
      destruct Hz as [Hz|[Hz| ->]]; auto. left. now apply in_removelast. }
  assert (M' : Mv p s') by (apply (Mv_ext p s); auto).
  assert (C' : Comp p s').
  { intros x Ux Px. specialize (C x Ux Px). unfold Placed in *. unfold s'. fld. rewrite in_snoc.
    destruct C as [H|H]; [|tauto]. rewrite (app_removelast_last 0 Hne) in H. fold l in H. apply in_snoc in H as [H| ->]; tauto. }
  split; [split; auto|]. split; [now apply (Al_ext s)|]. split; [now apply (Gr_ext s)|]. split; [|exact L].
  intros x y Hxy. change (rep s' x) with (rep s x). change (rep s' y) with (rep s y). change (adj s') with (adj s).
  change (selstk s') with (selstk s ++ [l]). destruct (D x y Hxy) as (D1 & D2 & D3). split; auto. split.
  - intros l1 l2 E N1 N2. change (fun l0 => In l0 (nth (rep s y) (adj s) []) /\ rep s' l0 = rep s x) with (fun l0 => In l0 (nth (rep s y) (adj s) []) /\ rep s l0 = rep s x).
    destruct (exists_last (l := rep s y :: l2) ltac:(discriminate)) as (l2' & z & E2). 
    rewrite E2, app_assoc in E. apply app_inj_tail in E as [E <-].
    destruct l2' as [|y' l2'].
    + cbn in E2. injection E2 as Ey El2. rewrite app_nil_r in E. subst l1. rewrite Ey in *.
      specialize (D3 N2 N1). assert (Rl : prepainted l = false) by auto. 
      rewrite Rl, andb_false_r in D3. exists (rep s x). split.
      * apply (g_adj s G); auto. now apply (g_sym s G).
      * apply rep_id; auto. now apply rep_root.
    + cbn in E2. injection E2 as <- E2. apply (D2 l1 l2'); auto.
  - intros N1 N2. rewrite in_snoc in N1, N2. apply D3; tauto.
Qed.

Lemma simp_full s s' : Full None s -> wlsimp s <> [] -> simp p s = Some s' -> Full None s'.
Proof.
  intros F Hne E. unfold simp in E. cbv zeta in E. pose proof (push_full s F Hne) as P. cbv zeta in P.
  revert E. apply (for_avail_ind (Full None)); [|exact P]. intros a t b Fa _ Ea. now apply (decdegree_full None a t b Fa Ea).
Qed.

End Core.
