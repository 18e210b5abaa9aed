(* Worklists and moves of the register allocator: invariants of the primitive operations. *)
From Verif Require Import Base Cfg_Reach Ra_Spec Ra_Model Ra_Live Ra_Tables.
Import Ra_Spec Ra_Model.

Ltac fld := cbn [gb adj deg coal alias wlsimp wlfreeze wlspill selstk place rmoves wlmove mactive wlmoveset mactiveset
  set_graph set_deg set_alias set_wl set_moves set_rmoves put_simp put_freeze put_spill put_sel set_place del_freeze del_spill] in *.

Lemma pl_eqb_eq a b : pl_eqb a b = true <-> a = b.
Proof. destruct a, b; split; intros H; try discriminate H; auto. Qed.
Lemma wlfind_in l r : wlfind l r = true <-> In r l.
Proof. apply existsb_eqb. Qed.
Lemma wlfind_out l r : wlfind l r = false <-> ~ In r l.
Proof. apply existsb_eqb_f. Qed.

Lemma in_remove1 r l x : In x (remove1 r l) -> In x l.
Proof. induction l as [|y l IH]; cbn; auto. destruct (r =? y); cbn; intuition. Qed.
Lemma in_remove1_neq r l x : x <> r -> In x l -> In x (remove1 r l).
Proof.
  induction l as [|y l IH]; cbn; auto. intros N [->|H].
  - destruct (Nat.eqb_spec r x); [congruence|now left].
  - destruct (r =? y); auto. right; auto.
Qed.
Lemma nodup_remove1 r l : NoDup l -> NoDup (remove1 r l) /\ ~ In r (remove1 r l).
Proof.
  induction 1 as [|x l Hx H [IH1 IH2]]; cbn; [split; auto; constructor|].
  destruct (Nat.eqb_spec r x) as [->|N]; [auto|]. split; [constructor; auto; intros Hc; apply Hx; eapply in_remove1; eauto|].
  intros [E|Hi]; auto.
Qed.
Lemma nodup_snoc (A : Type) (l : list A) x : NoDup l -> ~ In x l -> NoDup (l ++ [x]).
Proof.
  induction 1 as [|y l Hy H IH]; intros N; cbn; [constructor; auto; constructor|].
  constructor; [|apply IH; cbn in N; tauto]. rewrite in_app_iff. cbn in *. intuition.
Qed.
Lemma in_removelast (A : Type) (l : list A) x : In x (removelast l) -> In x l.
Proof. induction l as [|y l IH]; cbn; auto. destruct l as [|z l]; [intros []|]. intros [->|H]; [now left|right; exact (IH H)]. Qed.
Lemma removelast_last (A : Type) (l : list A) d : l <> [] -> l = removelast l ++ [last l d].
Proof. apply app_removelast_last. Qed.
Lemma in_snoc (A : Type) (l : list A) x y : In x (l ++ [y]) <-> In x l \/ x = y.
Proof. rewrite in_app_iff. cbn. intuition. Qed.

Section Inv.
Variable p : prog.
Hypothesis W : wf_prog p.
Notation nreg := (nregs p).

Definition U r := exists i, in_prog p i /\ (In r (uses i) \/ In r (defs i)).
Definition Pm m := exists i, in_prog p i /\ ismove i = Some m.
Definition Vr r := r < nreg /\ (prepainted r = false -> U r).

Lemma Pm_inj m m' : Pm m -> Pm m' -> m_uid m = m_uid m' -> m = m'.
Proof.
  intros (i & (b & bb & Hb & Hi) & E) (i' & (b' & bb' & Hb' & Hi') & E') Q.
  apply In_nth_error in Hi as (k & Hk). apply In_nth_error in Hi' as (k' & Hk').
  assert (uid i = m_uid m /\ uid i' = m_uid m') as [A A'].
  { unfold ismove in E, E'. destruct (iop i); [|discriminate]. destruct (iop i'); [|discriminate].
    destruct (args i) as [|[] [|[] ?]]; try discriminate. destruct (args i') as [|[] [|[] ?]]; try discriminate.
    injection E as <-. injection E' as <-. auto. }
  destruct (wf_uid p W b b' bb bb' k k' i i' Hb Hb' Hk Hk' ltac:(congruence)) as [-> ->].
  assert (bb = bb') by congruence. subst bb'. assert (i = i') by congruence. subst i'. congruence.
Qed.

(* ---------- invariants ---------- *)

Record Wl (e : option nat) (s : st) : Prop := {
  w_len : length (place s) = nreg;
  w_spill : NoDup (wlspill s) /\ forall z, In z (wlspill s) -> nth z (place s) Pnull = Pspill;
  w_freeze : NoDup (wlfreeze s) /\ forall z, In z (wlfreeze s) -> nth z (place s) Pnull = Pfreeze;
  w_simp : forall z, In z (wlsimp s) -> nth z (place s) Pnull = Psimp \/ nth z (place s) Pnull = Psel;
  w_sel : forall z, z < nreg -> (nth z (place s) Pnull = Psel <-> In z (selstk s));
  w_rng : forall z, In z (wlsimp s) \/ In z (wlfreeze s) \/ In z (wlspill s) \/ In z (selstk s) ->
            z < nreg /\ prepainted z = false /\ bshas (coal s) z = false;
  w_mv : forall z, In z (wlsimp s) \/ In z (selstk s) -> Some z <> e -> moverelated s z = false }.

Record Mv (s : st) : Prop := {
  v_nodup : NoDup (map m_uid (wlmove s ++ mactive s));
  v_prog : forall m, In m (wlmove s ++ mactive s) -> Pm m;
  v_rprog : forall r m, In m (nth r (rmoves s) []) -> Pm m;
  v_wl : forall m, In m (wlmove s) -> bshas (wlmoveset s) (m_uid m) = true;
  v_act : forall m, In m (mactive s) -> bshas (mactiveset s) (m_uid m) = true;
  v_disj : forall u, bshas (wlmoveset s) u = true -> bshas (mactiveset s) u = false;
  v_rm : forall m x, In m (wlmove s ++ mactive s) -> x = m_src m \/ x = m_dst m ->
           prepainted (getalias p s x) = true \/ exists m', In m' (nth (getalias p s x) (rmoves s) []) /\ m_uid m' = m_uid m }.

(* every register the program uses is on some list, or coalesced *)
Definition Placed (s : st) (r : nat) : Prop :=
  In r (wlsimp s) \/ In r (wlfreeze s) \/ In r (wlspill s) \/ In r (selstk s) \/ bshas (coal s) r = true.
Definition Comp (s : st) : Prop := forall r, U r -> prepainted r = false -> Placed s r.

(* s' differs from s in degrees, worklists and move lists only *)
Definition same_core (s s' : st) : Prop :=
  gb s' = gb s /\ adj s' = adj s /\ coal s' = coal s /\ alias s' = alias s /\ selstk s' = selstk s /\ rmoves s' = rmoves s.
Lemma same_core_refl s : same_core s s. Proof. repeat split. Qed.
Lemma same_core_trans a b c : same_core a b -> same_core b c -> same_core a c.
Proof. unfold same_core. intros (A1 & A2 & A3 & A4 & A5 & A6) (B1 & B2 & B3 & B4 & B5 & B6). repeat split; congruence. Qed.

Definition Inv (e : option nat) (s : st) : Prop := Wl e s /\ Mv s /\ Comp s.

Lemma moverelated_in s r : moverelated s r = true <-> exists m, In m (nth r (rmoves s) []) /\ enabled s m = true.
Proof. unfold moverelated. apply existsb_exists. Qed.
Lemma moverelated_mono s s' r : rmoves s' = rmoves s -> (forall m, enabled s' m = true -> enabled s m = true) ->
  moverelated s r = false -> moverelated s' r = false.
Proof.
  intros E H F. destruct (moverelated s' r) eqn:M; auto. apply moverelated_in in M as (m & Hm & He). rewrite E in Hm.
  rewrite <- F. symmetry. apply moverelated_in. eauto.
Qed.
Lemma moverelated_ext s s' r : rmoves s' = rmoves s -> mactiveset s' = mactiveset s -> wlmoveset s' = wlmoveset s ->
  moverelated s' r = moverelated s r.
Proof. unfold moverelated, enabled. intros -> -> ->. reflexivity. Qed.

(* Mv depends on the move fields, rmoves and alias only *)
Lemma Mv_ext s s' : rmoves s' = rmoves s -> alias s' = alias s -> wlmove s' = wlmove s -> mactive s' = mactive s ->
  wlmoveset s' = wlmoveset s -> mactiveset s' = mactiveset s -> Mv s -> Mv s'.
Proof.
  intros E1 E2 E3 E4 E5 E6 []. split; unfold getalias in *; rewrite ?E1, ?E2, ?E3, ?E4, ?E5, ?E6; auto.
Qed.

(* ---------- moving registers between worklists ---------- *)

Lemma place_upd s r x z : z < length (place s) -> nth z (upd (place s) r x) Pnull = if r =? z then x else nth z (place s) Pnull.
Proof.
  intros H. rewrite nth_upd. destruct (Nat.eqb_spec r z) as [->|N]; cbn [andb]; auto. apply Nat.ltb_lt in H. now rewrite H.
Qed.

(* take m off wlspill or wlfreeze and put it on another list *)
Lemma Wl_spill_freeze e s m : Wl e s -> In m (wlspill s) -> Wl e (put_freeze (del_spill s m) m).
Proof.
  intros H Hm. pose proof (w_rng e s H m ltac:(tauto)) as (R1 & R2 & R3). destruct (w_spill e s H) as [N1 P1]. destruct (w_freeze e s H) as [N2 P2].
  destruct (nodup_remove1 m _ N1) as [N3 N4]. pose proof (P1 m Hm) as Pm1. pose proof (w_len e s H) as L.
  assert (Nsel : ~ In m (selstk s)) by (intros Hc; apply (w_sel e s H m R1) in Hc; congruence).
  assert (Nfr : ~ In m (wlfreeze s)) by (intros Hc; apply P2 in Hc; congruence).
  assert (Nsi : ~ In m (wlsimp s)) by (intros Hc; destruct (w_simp e s H _ Hc); congruence).
  assert (PL : forall z, z < nreg -> nth z (upd (upd (place s) m Pnull) m Pfreeze) Pnull = if m =? z then Pfreeze else nth z (place s) Pnull).
  { intros z Hz. rewrite !nth_upd, !upd_length, L. destruct (Nat.eqb_spec m z) as [->|N]; cbn [andb]; auto. apply Nat.ltb_lt in Hz. now rewrite Hz. }
  split; fld.
  - now rewrite !upd_length.
  - split; auto. intros z Hz. rewrite PL by (eapply (w_rng e s H); right; right; left; eapply in_remove1; eauto).
    destruct (Nat.eqb_spec m z) as [->|N]; [tauto|]. apply P1. eapply in_remove1; eauto.
  - split; [apply nodup_snoc; auto|]. intros z Hz. apply in_snoc in Hz as [Hz| ->].
    + rewrite PL by (eapply (w_rng e s H); eauto). destruct (m =? z); auto.
    + rewrite PL by auto. now rewrite Nat.eqb_refl.
  - intros z Hz. rewrite PL by (eapply (w_rng e s H); eauto). destruct (Nat.eqb_spec m z) as [->|N]; [tauto|]. now apply (w_simp e s H).
  - intros z Hz. rewrite PL by auto. destruct (Nat.eqb_spec m z) as [->|N]; [split; [discriminate|tauto]|]. now apply (w_sel e s H).
  - intros z Hz. assert (z = m \/ (In z (wlsimp s) \/ In z (wlfreeze s) \/ In z (wlspill s) \/ In z (selstk s))) as [->|Q]; auto.
    { rewrite in_snoc in Hz. destruct Hz as [Hz|[[Hz|Hz]|[Hz|Hz]]]; auto. apply in_remove1 in Hz. auto. }
    now apply (w_rng e s H).
  - intros z Hz Ne. rewrite <- (w_mv e s H z Hz Ne). now apply moverelated_ext.
Qed.

Lemma Wl_to_simp e s s1 m : Wl e s ->
  (s1 = del_spill s m /\ In m (wlspill s)) \/ (s1 = del_freeze s m /\ In m (wlfreeze s)) \/ (s1 = s /\ (~ In m (wlspill s) /\ ~ In m (wlfreeze s) /\ ~ In m (selstk s)) /\ m < nreg /\ prepainted m = false /\ bshas (coal s) m = false) ->
  (Some m <> e -> moverelated s m = false) -> Wl e (put_simp s1 m).
Proof.
  intros H Hs Hmv. pose proof (w_len e s H) as L. destruct (w_spill e s H) as [N1 P1]. destruct (w_freeze e s H) as [N2 P2].
  assert (RM : m < nreg /\ prepainted m = false /\ bshas (coal s) m = false).
  { destruct Hs as [[_ Q]|[[_ Q]|[_ [_ Q]]]]; auto; apply (w_rng e s H); auto. }
  destruct RM as (R1 & R2 & R3).
  assert (Nsel : ~ In m (selstk s)).
  { intros Hc. destruct Hs as [[_ Q]|[[_ Q]|[_ [Q _]]]]; [apply P1 in Q|apply P2 in Q|tauto]; apply (w_sel e s H m R1) in Hc; congruence. }
  assert (E : wlsimp s1 = wlsimp s /\ selstk s1 = selstk s /\ coal s1 = coal s /\ rmoves s1 = rmoves s /\ mactiveset s1 = mactiveset s /\ wlmoveset s1 = wlmoveset s /\
     length (place s1) = nreg /\
     NoDup (wlspill s1) /\ NoDup (wlfreeze s1) /\
     (forall z, In z (wlspill s1) -> In z (wlspill s) /\ z <> m) /\ (forall z, In z (wlfreeze s1) -> In z (wlfreeze s) /\ z <> m) /\
     (forall z, z < nreg -> nth z (upd (place s1) m Psimp) Pnull = if m =? z then Psimp else nth z (place s) Pnull)).
  { destruct Hs as [[-> Q]|[[-> Q]|[-> [Q _]]]]; fld; rewrite ?upd_length.
    - destruct (nodup_remove1 m _ N1) as [N3 N4]. repeat split; auto; try (intros; apply nodup_remove1; auto).
      + intros; eapply in_remove1; eauto. + intros ->; tauto.
      + intros ->. apply P2 in H0. apply P1 in Q. congruence.
      + intros z Hz. rewrite !nth_upd, !upd_length, L. destruct (Nat.eqb_spec m z) as [->|N]; cbn [andb]; auto. apply Nat.ltb_lt in Hz. now rewrite Hz.
    - destruct (nodup_remove1 m _ N2) as [N3 N4]. repeat split; auto.
      + intros ->. apply P1 in H0. apply P2 in Q. congruence.
      + intros; eapply in_remove1; eauto. + intros ->; tauto.
      + intros z Hz. rewrite !nth_upd, !upd_length, L. destruct (Nat.eqb_spec m z) as [->|N]; cbn [andb]; auto. apply Nat.ltb_lt in Hz. now rewrite Hz.
    - repeat split; auto.
      + intros ->. tauto.
      + intros ->. tauto.
      + intros z Hz. rewrite nth_upd, L. destruct (Nat.eqb_spec m z) as [->|N]; cbn [andb]; auto. apply Nat.ltb_lt in Hz. now rewrite Hz. }
  destruct E as (E1 & E2 & E3 & E4 & E5 & E6 & E7 & D1 & D2 & I1 & I2 & PL).
  assert (RG : forall z, In z (wlsimp s) \/ In z (wlfreeze s) \/ In z (wlspill s) \/ In z (selstk s) -> z < nreg) by (intros z Hz; now apply (w_rng e s H)).
  split; fld; rewrite ?E1, ?E2, ?E3.
  - now rewrite upd_length.
  - split; auto. intros z Hz. destruct (I1 z Hz) as [A B]. rewrite PL by auto. destruct (Nat.eqb_spec m z); [congruence|]. auto.
  - split; auto. intros z Hz. destruct (I2 z Hz) as [A B]. rewrite PL by auto. destruct (Nat.eqb_spec m z); [congruence|]. auto.
  - intros z Hz. apply in_snoc in Hz as [Hz| ->]; rewrite PL by auto.
    + destruct (m =? z); auto. now apply (w_simp e s H).
    + rewrite Nat.eqb_refl. auto.
  - intros z Hz. rewrite PL by auto. destruct (Nat.eqb_spec m z) as [->|N]; [split; [discriminate|tauto]|]. now apply (w_sel e s H).
  - intros z Hz. rewrite in_snoc in Hz. assert (z = m \/ (In z (wlsimp s) \/ In z (wlfreeze s) \/ In z (wlspill s) \/ In z (selstk s))) as [->|Q].
    { destruct Hz as [[Hz|Hz]|[Hz|[Hz|Hz]]]; auto; [apply I2 in Hz|apply I1 in Hz]; tauto. }
    + auto.
    + now apply (w_rng e s H).
  - intros z Hz Ne. rewrite in_snoc in Hz. transitivity (moverelated s z); [apply moverelated_ext; auto|].
    destruct Hz as [[Hz| ->]|Hz]; auto; apply (w_mv e s H); auto.
Qed.

(* the same for the move m taken from wlfreeze to wlspill *)
Lemma Wl_freeze_spill e s m : Wl e s -> In m (wlfreeze s) -> Wl e (put_spill (del_freeze s m) m).
Proof.
  intros H Hm. pose proof (w_rng e s H m ltac:(tauto)) as (R1 & R2 & R3). destruct (w_spill e s H) as [N1 P1]. destruct (w_freeze e s H) as [N2 P2].
  destruct (nodup_remove1 m _ N2) as [N3 N4]. pose proof (P2 m Hm) as Pm1. pose proof (w_len e s H) as L.
  assert (Nsel : ~ In m (selstk s)) by (intros Hc; apply (w_sel e s H m R1) in Hc; congruence).
  assert (Nfr : ~ In m (wlspill s)) by (intros Hc; apply P1 in Hc; congruence).
  assert (Nsi : ~ In m (wlsimp s)) by (intros Hc; destruct (w_simp e s H _ Hc); congruence).
  assert (PL : forall z, z < nreg -> nth z (upd (upd (place s) m Pnull) m Pspill) Pnull = if m =? z then Pspill else nth z (place s) Pnull).
  { intros z Hz. rewrite !nth_upd, !upd_length, L. destruct (Nat.eqb_spec m z) as [->|N]; cbn [andb]; auto. apply Nat.ltb_lt in Hz. now rewrite Hz. }
  split; fld.
  - now rewrite !upd_length.
  - split; [apply nodup_snoc; auto|]. intros z Hz. apply in_snoc in Hz as [Hz| ->].
    + rewrite PL by (eapply (w_rng e s H); eauto). destruct (m =? z); auto.
    + rewrite PL by auto. now rewrite Nat.eqb_refl.
  - split; auto. intros z Hz. rewrite PL by (eapply (w_rng e s H); right; left; eapply in_remove1; eauto).
    destruct (Nat.eqb_spec m z) as [->|N]; [tauto|]. apply P2. eapply in_remove1; eauto.
  - intros z Hz. rewrite PL by (eapply (w_rng e s H); eauto). destruct (Nat.eqb_spec m z) as [->|N]; [tauto|]. now apply (w_simp e s H).
  - intros z Hz. rewrite PL by auto. destruct (Nat.eqb_spec m z) as [->|N]; [split; [discriminate|tauto]|]. now apply (w_sel e s H).
  - intros z Hz. assert (z = m \/ (In z (wlsimp s) \/ In z (wlfreeze s) \/ In z (wlspill s) \/ In z (selstk s))) as [->|Q]; auto.
    { rewrite in_snoc in Hz. destruct Hz as [Hz|[Hz|[[Hz|Hz]|Hz]]]; auto. apply in_remove1 in Hz. auto. }
    now apply (w_rng e s H).
  - intros z Hz Ne. rewrite <- (w_mv e s H z Hz Ne). now apply moverelated_ext.
Qed.

(* ---------- enabling moves ---------- *)

Lemma delskip_none m l : ~ In (m_uid m) (map m_uid l) -> delskip m l = (l, 0).
Proof.
  induction l as [|x l IH]; cbn; auto. intros N. unfold mv_eqb at 1. destruct (Nat.eqb_spec (m_uid m) (m_uid x)); [exfalso; apply N; left; congruence|].
  rewrite IH by tauto. reflexivity.
Qed.
Lemma delskip_some m l : NoDup (map m_uid l) -> In m l -> exists l', delskip m l = (l', 1) /\ Permutation l (m :: l').
Proof.
  induction l as [|x l IH]; intros N H; [destruct H|]. cbn in N. inversion N as [|? ? Nx N']; subst. cbn [delskip]. unfold mv_eqb at 1.
  destruct (Nat.eqb_spec (m_uid m) (m_uid x)) as [E|E].
  - assert (x = m).
    { destruct H as [H|H]; auto. exfalso. apply Nx. rewrite <- E. now apply in_map. }
    subst x. destruct l as [|y l]; [exists []; split; auto|].
    rewrite delskip_none; [exists (y :: l); split; auto|]. intros Hc. apply Nx. now right.
  - destruct H as [->|H]; [congruence|]. destruct (IH N' H) as (l' & -> & P). exists (x :: l'). split; auto.
    rewrite perm_swap. now constructor.
Qed.

(* what enable1 may change *)
Definition moved (s s' : st) : Prop :=
  s' = set_moves s (wlmove s') (mactive s') (wlmoveset s') (mactiveset s') /\
  Permutation (wlmove s ++ mactive s) (wlmove s' ++ mactive s') /\ (forall m, enabled s' m = enabled s m).

Lemma set_moves_id s : set_moves s (wlmove s) (mactive s) (wlmoveset s) (mactiveset s) = s.
Proof. destruct s; reflexivity. Qed.
Lemma moved_refl s : moved s s.
Proof. split; [now rewrite set_moves_id|]. split; auto. Qed.
Lemma moved_trans a b c : moved a b -> moved b c -> moved a c.
Proof.
  intros (A1 & A2 & A3) (B1 & B2 & B3). split; [rewrite B1, A1; reflexivity|]. split; [now rewrite A2|]. intros m. now rewrite B3.
Qed.

Lemma enable1_moved s m : Mv s -> Pm m -> Mv (enable1 s m) /\ moved s (enable1 s m).
Proof.
  intros H Hp. unfold enable1. destruct (bshas (mactiveset s) (m_uid m)) eqn:A; [|split; auto; apply moved_refl].
  pose proof (v_nodup s H) as N. rewrite map_app in N.
  assert (N2 : NoDup (map m_uid (mactive s))).
  { clear - N. induction (map m_uid (wlmove s)) as [|x l IH]; auto. inversion N; auto. }
  destruct (in_dec Nat.eq_dec (m_uid m) (map m_uid (mactive s))) as [Hi|Hi].
  2: { rewrite (delskip_none _ _ Hi). split; auto; apply moved_refl. }
  assert (Hm : In m (mactive s)).
  { apply in_map_iff in Hi as (x & Ex & Hx). rewrite <- (Pm_inj x m); auto. apply (v_prog s H). rewrite in_app_iff. auto. }
  destruct (delskip_some m (mactive s) N2 Hm) as (l' & -> & P). change (1 =? 0) with false. cbn [repeat].
  assert (PP : Permutation (wlmove s ++ mactive s) ((wlmove s ++ [m]) ++ l')).
  { rewrite P. rewrite <- app_assoc. reflexivity. }
  assert (EN : forall x, bshas (bsdel (mactiveset s) (m_uid m)) x || bshas (bsput (wlmoveset s) (m_uid m)) x = bshas (mactiveset s) x || bshas (wlmoveset s) x).
  { intros x. rewrite has_put, has_del. destruct (Nat.eqb_spec (m_uid m) x) as [<-|Ne].
    - rewrite A. destruct (bshas (wlmoveset s) (m_uid m)); reflexivity.
    - cbn [negb orb]. now rewrite andb_true_r. }
  split.
  - split; fld.
    + rewrite <- PP. apply (v_nodup s H).
    + intros x Hx. apply (v_prog s H). eapply Permutation_in; [symmetry; exact PP|auto].
    + apply (v_rprog s H).
    + intros x Hx. rewrite has_put. apply in_snoc in Hx as [Hx| ->]; [rewrite (v_wl s H x Hx); apply orb_true_r|rewrite Nat.eqb_refl; reflexivity].
    + intros x Hx. assert (Hx' : In x (mactive s)) by (eapply Permutation_in; [symmetry; exact P|now right]).
      rewrite has_del, (v_act s H x Hx'). cbn. apply negb_true_iff, Nat.eqb_neq. intros E.
      apply (Permutation_NoDup (Permutation_map m_uid P)) in N2. cbn [map] in N2. apply NoDup_cons_iff in N2 as [Nx _]. apply Nx. rewrite E. now apply in_map.
    + intros x. rewrite has_put, has_del. destruct (Nat.eqb_spec (m_uid m) x) as [<-|Ne]; cbn [orb negb]; [intros _; apply andb_false_r|].
      intros Hx. rewrite (v_disj s H x Hx). reflexivity.
    + intros x y Hx Hy. apply (v_rm s H x y); auto. eapply Permutation_in; [symmetry; exact PP|auto].
  - split; [reflexivity|]. split; [exact PP|]. intros x. unfold enabled. fld. apply EN.
Qed.

Lemma enables_moved l : forall s, Mv s -> (forall m, In m l -> Pm m) -> Mv (fold_left enable1 l s) /\ moved s (fold_left enable1 l s).
Proof.
  induction l as [|m l IH]; intros s H Hp; cbn [fold_left]; [split; auto; apply moved_refl|].
  destruct (enable1_moved s m H (Hp m (or_introl eq_refl))) as [H1 M1].
  destruct (IH _ H1 (fun x Hx => Hp x (or_intror Hx))) as [H2 M2]. split; auto. eapply moved_trans; eauto.
Qed.
Lemma enablemove_moved s n : Mv s -> Mv (enablemove s n) /\ moved s (enablemove s n).
Proof.
  intros H. unfold enablemove. apply enables_moved; auto. intros m Hm. unfold nodemoves in Hm. apply filter_In in Hm as [Hm _].
  eapply (v_rprog s H); eauto.
Qed.
Lemma enableadj_moved l : forall s, Mv s ->
  let s' := fold_left (fun s n => if adjavail s n then enablemove s n else s) l s in Mv s' /\ moved s s'.
Proof.
  induction l as [|n l IH]; intros s H; cbn [fold_left]; [split; auto; apply moved_refl|].
  destruct (adjavail s n).
  - destruct (enablemove_moved s n H) as [H1 M1]. destruct (IH _ H1) as [H2 M2]. split; auto. eapply moved_trans; eauto.
  - now apply IH.
Qed.

(* moved states have the same worklists *)
Lemma moved_fields s s' : moved s s' -> same_core s s' /\ deg s' = deg s /\ wlsimp s' = wlsimp s /\ wlfreeze s' = wlfreeze s /\
  wlspill s' = wlspill s /\ place s' = place s.
Proof. intros (E & _ & _). rewrite E. fld. repeat split. Qed.
Lemma moved_Wl e s s' : moved s s' -> Wl e s -> Wl e s'.
Proof.
  intros M H. pose proof (moved_fields s s' M) as ((A1 & A2 & A3 & A4 & A5 & A6) & A7 & A8 & A9 & A10 & A11).
  destruct M as (_ & _ & En). destruct H. split; rewrite ?A3, ?A5, ?A8, ?A9, ?A10, ?A11; auto.
  intros z Hz Ne. apply (moverelated_mono s); auto. intros m. now rewrite En.
Qed.
Lemma moved_Comp s s' : moved s s' -> Comp s -> Comp s'.
Proof.
  intros M H r Hr Hp. pose proof (moved_fields s s' M) as ((A1 & A2 & A3 & A4 & A5 & A6) & A7 & A8 & A9 & A10 & A11).
  unfold Placed. rewrite A3, A5, A8, A9, A10. now apply H.
Qed.

Lemma Wl_deg e s d : Wl e s -> Wl e (set_deg s d).
Proof. intros []. split; auto. Qed.
Lemma Mv_deg s d : Mv s -> Mv (set_deg s d).
Proof. intros []. split; auto. Qed.

(* ---------- decdegree ---------- *)

Lemma Comp_step s s' r : (forall x, x <> r -> Placed s x -> Placed s' x) -> Placed s' r -> Comp s -> Comp s'.
Proof. intros H Hr C x Ux Px. destruct (Nat.eq_dec x r) as [->|N]; auto. Qed.

Lemma decdegree_inv e s m s' : Inv e s -> decdegree p s m = Some s' -> Inv e s' /\ same_core s s'.
Proof.
  intros (HW & HM & HC) E. unfold decdegree in E. destruct (nreg <=? m) eqn:Lm; [discriminate|]. cbv zeta in E.
  set (s1 := set_deg s _) in *. destruct (Bool.eqb _ _).
  - injection E as <-. split; [|repeat split]. split; [|split]; [now apply Wl_deg|now apply Mv_deg|exact HC].
  - assert (HW1 : Wl e s1) by now apply Wl_deg. assert (HM1 : Mv s1) by now apply Mv_deg.
    destruct (enablemove_moved s1 m HM1) as [HM2 M2]. set (s2 := enablemove s1 m) in *.
    destruct (enableadj_moved (nth m (adj s2) []) s2 HM2) as [HM3 M3]. set (s3 := fold_left _ _ s2) in *.
    pose proof (moved_trans _ _ _ M2 M3) as M13.
    pose proof (moved_Wl e _ _ M13 HW1) as HW3. pose proof (moved_Comp _ _ M13 HC) as HC3.
    destruct (moved_fields _ _ M13) as (SC & _ & _ & _ & _ & _).
    assert (SC3 : same_core s s3) by exact SC.
    destruct (wlfind (wlspill s3) m) eqn:F.
    + apply wlfind_in in F. destruct (moverelated (del_spill s3 m) m) eqn:Mr; injection E as <-.
      * split; [|exact SC3]. split; [now apply Wl_spill_freeze|]. split; [apply (Mv_ext s3); auto|].
        apply (Comp_step s3 _ m); auto; unfold Placed; fld.
        -- intros x Nx [H|[H|[H|[H|H]]]]; rewrite ?in_snoc; auto. right. right. left. now apply in_remove1_neq.
        -- rewrite in_snoc. auto.
      * split; [|exact SC3]. split; [apply (Wl_to_simp e s3); auto|]. split; [apply (Mv_ext s3); auto|].
        apply (Comp_step s3 _ m); auto; unfold Placed; fld.
        -- intros x Nx [H|[H|[H|[H|H]]]]; rewrite ?in_snoc; auto. right. right. left. now apply in_remove1_neq.
        -- rewrite in_snoc. auto.
    + destruct (moverelated s3 m); [destruct (wlfind (wlfreeze s3) m)|destruct (wlfind (wlsimp s3) m)]; try discriminate; injection E as <-;
      (split; [|exact SC3]); split; auto.
Qed.

End Inv.
