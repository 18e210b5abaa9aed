(* Register allocator: the colours paint hands out. *)
From Verif Require Import Base Cfg_Reach Ra_Spec Ra_Model Ra_Live Ra_Tables Ra_Wl Ra_Core Ra_Steps.
Import Ra_Spec Ra_Model.

Lemma modeidx_inj a b : modeidx a = modeidx b -> a = b.
Proof. destruct a, b; cbn; congruence. Qed.
Lemma bsput_nz s r : bsput s r <> 0%N.
Proof. intros H. assert (bshas (bsput s r) r = true) by (rewrite has_put, Nat.eqb_refl; reflexivity). rewrite H, has_0 in H0. discriminate. Qed.

Section Paint.
Variable p : prog.
Hypothesis W : wf_prog p.
Notation nreg := (nregs p).
Notation U := (Ra_Wl.U p).
Notation rep := (getalias p).
Variable s : st.

(* the painting of the stack, from its top *)
Definition painting (l : list nat) : list nat * bset := fold_right (fun n cs => paint1 p s cs n) (colours0 p, 0%N) l.

Lemma painting_length l : length (fst (painting l)) = nreg.
Proof.
  induction l as [|n l IH]; cbn [painting fold_right].
  - cbn [fst]. unfold colours0. now rewrite map_length, seq_length.
  - fold (painting l). destruct (painting l) as [col sp]. cbn [fst] in *. unfold paint1. destruct (pick _ _); cbn [fst]; auto. now rewrite upd_length.
Qed.
Lemma painting_other l : forall r, ~ In r l -> nth r (fst (painting l)) 0 = nth r (colours0 p) 0.
Proof.
  induction l as [|n l IH]; intros r H; cbn [painting fold_right]; auto. fold (painting l). cbn in H.
  rewrite <- IH by tauto. destruct (painting l) as [col sp]. cbn [fst]. unfold paint1. destruct (pick _ _); cbn [fst]; auto. rewrite nth_upd_other; auto.
Qed.
Lemma painting_sp n l : snd (painting (n :: l)) = 0%N -> snd (painting l) = 0%N /\
  exists i, pick (takenby p s (fst (painting l)) n) (vmode p n) = Some i /\ fst (painting (n :: l)) = upd (fst (painting l)) n (regmap i (modeidx (vmode p n))).
Proof.
  cbn [painting fold_right]. fold (painting l). destruct (painting l) as [col sp]. cbn [fst snd]. unfold paint1.
  destruct (pick _ _) as [i|]; cbn [fst snd]; [eauto|]. intros H. now apply bsput_nz in H.
Qed.
Lemma painted l : forall r, snd (painting l) = 0%N -> In r l -> r < nreg ->
  exists i, nth r (fst (painting l)) 0 = regmap i (modeidx (vmode p r)) /\ regmap i (modeidx (vmode p r)) <> 0.
Proof.
  induction l as [|n l IH]; intros r Hs Hr Lr; [destruct Hr|]. destruct (painting_sp n l Hs) as (Hs' & i & Hp & ->).
  destruct (Nat.eq_dec n r) as [->|Ne].
  - exists i. rewrite nth_upd_same by (rewrite painting_length; auto). split; auto.
    unfold pick in Hp. apply find_some in Hp as [_ Hp]. apply andb_true_iff in Hp as [Hp _]. apply negb_true_iff, Nat.eqb_neq in Hp. auto.
  - rewrite nth_upd_other by auto. apply IH; auto. destruct Hr; [congruence|auto].
Qed.

Lemma painting_differ l1 : forall Y l2 X, snd (painting (l1 ++ Y :: l2)) = 0%N -> ~ In Y l1 -> ~ In X l1 -> X <> Y -> Y < nreg ->
  (exists l, In l (nth Y (adj s) []) /\ rep s l = X) -> nth X (fst (painting (l1 ++ Y :: l2))) 0 <> 0 ->
  colourmap (nth Y (fst (painting (l1 ++ Y :: l2))) 0) <> colourmap (nth X (fst (painting (l1 ++ Y :: l2))) 0).
Proof.
  induction l1 as [|z l1 IH]; intros Y l2 X Hs HY HX Ne LY Ha.
  - cbn [app] in *. destruct (painting_sp Y l2 Hs) as (Hs' & i & Hp & ->). rewrite nth_upd_same by (rewrite painting_length; auto).
    rewrite nth_upd_other by auto. intros Nz E.
    unfold pick in Hp. apply find_some in Hp as [_ Hp]. apply andb_true_iff in Hp as [Hp1 Hp2]. apply negb_true_iff, Nat.eqb_neq in Hp1.
    apply negb_true_iff in Hp2. apply existsb_eqb_f in Hp2. apply Hp2. destruct (regmap_entry i _ Hp1) as (_ & _ & Ei & _).
    unfold takenby. apply in_flat_map. destruct Ha as (l & Hl & Er). exists l. split; auto. cbv zeta. rewrite Er.
    apply Nat.eqb_neq in Nz. rewrite Nz. left. congruence.
  - change ((z :: l1) ++ Y :: l2) with (z :: (l1 ++ Y :: l2)) in *. destruct (painting_sp z _ Hs) as (Hs' & i & Hp & ->). cbn in HY, HX.
    rewrite !nth_upd_other by (intros E; subst; tauto). apply IH; auto.
Qed.

Hypothesis F : Full p None s.
Hypothesis Fin : finished s = true.

Lemma all_selected r : U r -> prepainted r = false -> bshas (coal s) r = false -> In r (selstk s).
Proof.
  intros Ur Pr Cr. destruct F as ((_ & _ & C) & _). specialize (C r Ur Pr). unfold finished in Fin. unfold Placed in C.
  destruct (wlsimp s), (wlmove s), (wlfreeze s), (wlspill s); try discriminate. rewrite Cr in C. destruct C as [[]|[[]|[[]|[C|C]]]]; auto. discriminate.
Qed.

Lemma paint_rep col sp : paint p s = (col, sp) -> snd (painting (selstk s)) = sp /\
  forall x, x < nreg -> nth x col 0 = nth (rep s x) (fst (painting (selstk s))) 0.
Proof.
  destruct F as (I & A & _). unfold paint. rewrite <- fold_left_rev_right, rev_involutive.
  change (fold_right (fun y x => paint1 p s x y) (colours0 p, 0%N) (selstk s)) with (painting (selstk s)).
  pose proof (painting_length (selstk s)) as Len. destruct (painting (selstk s)) as [c0 sp0]. cbn [fst snd] in *. intros E. injection E as <- <-. split; auto.
  assert (H : forall l c, length c = nreg -> (forall y, bshas (coal s) y = false -> nth y c 0 = nth y c0 0) -> (forall y, In y l -> bshas (coal s) y = true) ->
    let c' := fold_left (fun col l => upd col l (nth (rep s l) col 0)) l c in
    length c' = nreg /\ (forall y, bshas (coal s) y = false -> nth y c' 0 = nth y c0 0) /\
    (forall y, y < nreg -> In y l \/ nth y c 0 = nth (rep s y) c0 0 -> nth y c' 0 = nth (rep s y) c0 0)).
  { induction l as [|z l IH]; intros c Lc Hc Hl; cbn [fold_left].
    - split; auto. split; auto. intros y _ [[]|H]; auto.
    - assert (Rz : nth (rep s z) c 0 = nth (rep s z) c0 0) by (apply Hc; now apply rep_root).
      destruct (IH (upd c z (nth (rep s z) c 0))) as (I1 & I2 & I3).
      + now rewrite upd_length.
      + intros y Hy. rewrite nth_upd_other; auto. intros ->. rewrite (Hl y (or_introl eq_refl)) in Hy. discriminate.
      + intros y Hy. apply Hl. now right.
      + split; auto. split; auto. intros y Ly Hy. apply I3; auto. destruct (Nat.eq_dec z y) as [->|Ne].
        * right. rewrite nth_upd_same by lia. auto.
        * destruct Hy as [[->|Hy]|Hy]; [congruence|auto|]. right. rewrite nth_upd_other; auto. }
  intros x Lx. destruct (H (members nreg (coal s)) c0 Len (fun _ _ => eq_refl)) as (_ & H1 & H2).
  - intros y Hy. apply in_members in Hy. tauto.
  - destruct (bshas (coal s) x) eqn:Cx.
    + apply H2; auto. left. apply in_members. auto.
    + rewrite (rep_id p s x A Cx). now apply H1.
Qed.

Section Result.
Variable col : list nat.
Hypothesis P : paint p s = (col, 0%N).
Notation c0 := (fst (painting (selstk s))).

Lemma colour_prep r : r < nreg -> prepainted r = true -> nth r col 0 = r.
Proof.
  intros Lr Pr. destruct F as ((Wl & _ & _) & A & _). destruct (paint_rep col 0%N P) as [_ H]. rewrite (H r Lr), (rep_prep p s r A Pr).
  rewrite painting_other.
  - unfold colours0. rewrite (nth_indep _ 0 (if prepainted 0 then 0 else 0)) by (rewrite map_length, seq_length; auto).
    rewrite (map_nth (fun r => if prepainted r then r else 0)), seq_nth by auto. cbn [Nat.add]. now rewrite Pr.
  - intros Hc. destruct (w_rng p None s Wl r ltac:(auto)) as (_ & Q & _). congruence.
Qed.

(* the colour of a representative *)
Lemma colour_rep X : X < nreg -> bshas (coal s) X = false -> fixedreg X = false -> (prepainted X = true -> general X = true) -> (prepainted X = false -> U X) ->
  general (nth X c0 0) = true /\ hwmode (nth X c0 0) = vmode p X.
Proof.
  intros LX CX FX GX UX. destruct F as ((Wl & _ & _) & A & _). destruct (paint_rep col 0%N P) as [Sp H]. destruct (prepainted X) eqn:PX.
  - assert (E : nth X c0 0 = X). { rewrite <- (rep_id p s X A CX) at 1. rewrite <- (H X LX). now apply colour_prep. }
    rewrite E. split; auto. symmetry. apply (wf_hwmode p W). now apply prep_phys.
  - pose proof (all_selected X (UX eq_refl) PX CX) as Hs. destruct (painted _ X Sp Hs LX) as (i & E & N). rewrite E.
    destruct (regmap_entry i _ N) as (_ & G & _ & M). split; auto. now apply modeidx_inj.
Qed.

Lemma rep_node x : node p x -> fixedreg x = false -> let X := rep s x in
  X < nreg /\ bshas (coal s) X = false /\ fixedreg X = false /\ (prepainted X = true -> general X = true) /\ (prepainted X = false -> U X).
Proof.
  intros N Fx X. destruct F as (I & A & _). destruct (rep_cases p s x A) as [E|(_ & _ & T1 & T2 & T3 & T4 & T5)].
  - unfold X. rewrite E. split; [apply N|]. split; [rewrite <- E; now apply rep_root|]. split; auto. split; [intros; now apply (node_general p)|apply N].
  - unfold X. split; auto. split; [now apply rep_root|]. auto.
Qed.

(* every register that is used gets a machine register of its own size *)
Theorem colour_ok x : node p x -> fixedreg x = false -> general (nth x col 0) = true /\ hwmode (nth x col 0) = vmode p x.
Proof.
  intros N Fx. destruct (rep_node x N Fx) as (L & C & Fr & G & Ux). destruct F as (I & A & _). destruct (paint_rep col 0%N P) as [_ H].
  rewrite (H x (proj1 N)), <- (rep_mode p s x A). now apply colour_rep.
Qed.

(* registers joined by an edge get different storage *)
Theorem edge_colours x y : edge s x y -> hw (nth x col 0) <> hw (nth y col 0).
Proof.
  intros E. pose proof F as ((Wl & _ & _) & A & G & D & _). destruct (paint_rep col 0%N P) as [Sp H].
  destruct (g_edge p s G x y E) as (Nx & _ & _ & _ & Fx). destruct (g_edge p s G y x (g_sym p s G _ _ E)) as (Ny & _ & _ & _ & Fy).
  rewrite (H x (proj1 Nx)), (H y (proj1 Ny)).
  destruct (rep_node x Nx Fx) as (LX & CX & FX & GX & UX). destruct (rep_node y Ny Fy) as (LY & CY & FY & GY & UY).
  destruct (colour_rep _ LX CX FX GX UX) as [KX _]. destruct (colour_rep _ LY CY FY GY UY) as [KY _].
  rewrite <- (colourmap_hw _ _ KX KY).
  destruct (D x y E) as (Ne & D1 & D3). destruct (D y x (g_sym p s G _ _ E)) as (_ & D2 & _).
  set (X := rep s x) in *. set (Y := rep s y) in *.
  assert (ZX : nth X c0 0 <> 0) by (intros Q; rewrite Q in KX; discriminate).
  assert (ZY : nth Y c0 0 <> 0) by (intros Q; rewrite Q in KY; discriminate).
  (* whichever register is pushed first *)
  assert (First : forall l, In X l \/ In Y l -> exists l1 l2, (l = l1 ++ Y :: l2 \/ l = l1 ++ X :: l2) /\ ~ In X l1 /\ ~ In Y l1).
  { induction l as [|z l IH]; [intros [[]|[]]|]. intros Hz. destruct (Nat.eq_dec z Y) as [->|N1]; [exists [], l; cbn; auto|].
    destruct (Nat.eq_dec z X) as [->|N2]; [exists [], l; cbn; auto|].
    destruct IH as (l1 & l2 & Hl & H1 & H2); [destruct Hz as [[Hz|Hz]|[Hz|Hz]]; auto; congruence|].
    exists (z :: l1), l2. split; [destruct Hl as [->| ->]; auto|]. cbn. split; intros [Q|Q]; auto; congruence. }
  destruct (in_dec Nat.eq_dec X (selstk s)) as [HX|HX]; [|destruct (in_dec Nat.eq_dec Y (selstk s)) as [HY|HY]].
  3: { specialize (D3 HX HY).
       assert (PX : prepainted X = true). { destruct (prepainted X) eqn:Q; auto. exfalso. apply HX. apply all_selected; auto. }
       assert (PY : prepainted Y = true). { destruct (prepainted Y) eqn:Q; auto. exfalso. apply HY. apply all_selected; auto. }
       rewrite PX, PY in D3. cbn [andb] in D3.
       assert (E1 : nth X c0 0 = X). { rewrite <- (rep_id p s X A CX) at 1. rewrite <- (H X LX). now apply colour_prep. }
       assert (E2 : nth Y c0 0 = Y). { rewrite <- (rep_id p s Y A CY) at 1. rewrite <- (H Y LY). now apply colour_prep. }
       now rewrite E1, E2. }
  all: destruct (First (selstk s)) as (l1 & l2 & [El|El] & N1 & N2); auto; rewrite El in *.
  1,3: apply not_eq_sym, painting_differ; auto; apply (D1 l1 l2); auto.
  all: apply painting_differ; auto; apply (D2 l1 l2); auto.
Qed.
End Result.
End Paint.
