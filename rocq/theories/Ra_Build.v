(* Register allocator: the interference graph covers every conflict, and a round starts in a good state. *)
From Verif Require Import Base Cfg_Reach Ra_Spec Ra_Model Ra_Live Ra_Tables Ra_Wl Ra_Core Ra_Steps.
Import Ra_Spec Ra_Model.

(* ---------- the sparse live set ---------- *)

Lemma sdel_perm r l : NoDup l -> In r l -> Permutation (r :: sdel r l) l.
Proof.
  intros N H. unfold sdel. rewrite (proj2 (existsb_eqb r l) H).
  destruct (exists_last (l := l)) as (l0 & z & ->); [intros ->; destruct H|].
  rewrite List.removelast_last, last_last. apply nodup_app_l in N as (N1 & _ & N3).
  destruct (Nat.eq_dec r z) as [->|Nz].
  - assert (E : map (fun x => if x =? z then z else x) l0 = l0).
    { rewrite <- (map_id l0) at 2. apply map_ext_in. intros x Hx. destruct (Nat.eqb_spec x z); auto. }
    rewrite E. apply Permutation_cons_append.
  - apply in_snoc in H as [H|H]; [|congruence]. apply in_split in H as (a & b & ->).
    assert (E : map (fun x => if x =? r then z else x) (a ++ r :: b) = a ++ z :: b).
    { apply NoDup_remove in N1 as [N1 N2]. rewrite map_app. cbn [map]. rewrite Nat.eqb_refl. f_equal; [|f_equal].
      - rewrite <- (map_id a) at 2. apply map_ext_in. intros x Hx. destruct (Nat.eqb_spec x r); auto. subst. exfalso. apply N2, in_or_app. auto.
      - rewrite <- (map_id b) at 2. apply map_ext_in. intros x Hx. destruct (Nat.eqb_spec x r); auto. subst. exfalso. apply N2, in_or_app. auto. }
    rewrite E, <- app_assoc. cbn [app]. apply Permutation_cons_app, Permutation_app_head, Permutation_cons_append.
Qed.
Lemma sdel_spec r l : NoDup l -> NoDup (sdel r l) /\ forall x, In x (sdel r l) <-> In x l /\ x <> r.
Proof.
  intros N. destruct (in_dec Nat.eq_dec r l) as [H|H].
  - pose proof (sdel_perm r l N H) as P. pose proof (Permutation_NoDup (Permutation_sym P) N) as N'. apply NoDup_cons_iff in N' as [N1 N2].
    split; auto. intros x. split.
    + intros Hx. split; [eapply Permutation_in; [exact P|now right]|]. intros ->. tauto.
    + intros [Hx Ne]. apply (Permutation_in _ (Permutation_sym P)) in Hx. destruct Hx; [congruence|auto].
  - unfold sdel. rewrite (proj2 (existsb_eqb_f r l) H). split; auto. intros x. split; [|tauto]. intros Hx. split; auto. intros ->. tauto.
Qed.
Lemma sput_spec r l : NoDup l -> NoDup (sput r l) /\ forall x, In x (sput r l) <-> In x l \/ x = r.
Proof.
  intros N. unfold sput. destruct (existsb (Nat.eqb r) l) eqn:E.
  - apply existsb_eqb in E. split; auto. intros x. split; auto. intros [H| ->]; auto.
  - apply existsb_eqb_f in E. split; [now apply nodup_snoc|]. intros x. apply in_snoc.
Qed.
Lemma sdels_spec (l : list nat) : forall s, NoDup s -> NoDup (fold_left (fun l r => sdel r l) l s) /\ forall x, In x (fold_left (fun l r => sdel r l) l s) <-> In x s /\ ~ In x l.
Proof.
  induction l as [|r l IH]; intros s N; cbn [fold_left]; [cbn; tauto|]. destruct (sdel_spec r s N) as [N1 H1]. destruct (IH _ N1) as [N2 H2].
  split; auto. intros x. rewrite H2, H1. cbn. intuition.
Qed.
Lemma sputs_spec (l : list nat) : forall s, NoDup s -> NoDup (fold_left (fun l r => sput r l) l s) /\ forall x, In x (fold_left (fun l r => sput r l) l s) <-> In x s \/ In x l.
Proof.
  induction l as [|r l IH]; intros s N; cbn [fold_left]; [cbn; tauto|]. destruct (sput_spec r s N) as [N1 H1]. destruct (IH _ N1) as [N2 H2].
  split; auto. intros x. rewrite H2, H1. cbn. intuition.
Qed.
Lemma del_use_spec u s : NoDup s -> NoDup (del_use s u) /\ forall x, In x (del_use s u) <->
  In x s /\ ~ (if prepainted u then exists a, In a (seq 0 Nmode) /\ regmap (colourmap u) a = x else x = u).
Proof.
  intros N. unfold del_use. destruct (prepainted u); [|now apply sdel_spec].
  assert (E : forall l s, fold_left (fun l a => sdel (regmap (colourmap u) a) l) l s = fold_left (fun l r => sdel r l) (map (regmap (colourmap u)) l) s).
  { induction l as [|a l IH]; intros t; cbn [fold_left map]; auto. }
  rewrite E. destruct (sdels_spec (map (regmap (colourmap u)) (seq 0 Nmode)) s N) as [N1 H1]. split; auto. intros x. rewrite H1, in_map_iff.
  assert (Q : (exists a, regmap (colourmap u) a = x /\ In a (seq 0 Nmode)) <-> exists a, In a (seq 0 Nmode) /\ regmap (colourmap u) a = x) by (split; intros (a & A1 & A2); exists a; auto).
  tauto.
Qed.

Lemma nth_repeat_any (A : Type) (a : A) n i : nth i (repeat a n) a = a.
Proof. revert i; induction n as [|n IH]; intros [|i]; cbn; auto. Qed.
Lemma filter_le (A : Type) (f : A -> bool) l : length (filter f l) <= length l.
Proof. induction l as [|x l IH]; cbn; auto. destruct (f x); cbn; lia. Qed.

(* row-mates of the frame registers *)
Lemma row_frame src r : framereg src = true -> general r = true -> colourmap r = colourmap src ->
  (src = 59 /\ hw r = Xmm 0) \/ (src = 60 /\ hw r = Xmm 1) \/ (src = 101 /\ hw r = Gpr 0).
Proof.
  intros Fs G E. unfold framereg in Fs. apply orb_true_iff in Fs as [Fs|Fs]; [apply orb_true_iff in Fs as [Fs|Fs]|]; apply Nat.eqb_eq in Fs; subst src.
  - left. split; auto. change (Xmm 0) with (hw 69). apply colourmap_hw; auto.
  - right. left. split; auto. change (Xmm 1) with (hw 70). apply colourmap_hw; auto.
  - right. right. split; auto. change (Gpr 0) with (hw 53). apply colourmap_hw; auto.
Qed.

Section Build.
Variable p : prog.
Hypothesis W : wf_prog p.
Notation nreg := (nregs p).
Notation U := (Ra_Wl.U p).

Lemma use_node i r : in_prog p i -> In r (uses i) \/ In r (defs i) -> node p r.
Proof.
  intros Hi H. pose proof (wf_nofix p i W Hi) as NF.
  assert (M : mentions i r).
  { destruct H as [H|H]; [apply uses_reads in H; auto; now apply reads_mentions|apply defs_writes in H; auto].
    destruct H as [(k & _ & H)|H]; [left|right; right; auto]. exists (Lreg r). split; auto. eapply nth_error_In; eauto. }
  destruct (wf_regs p W i r Hi M) as [L N]. split; auto. split; [intros P; apply N; now apply prep_phys|]. intros _. exists i. auto.
Qed.
Lemma at_prog pt i : insn_at p pt i -> in_prog p i.
Proof. intros (b & Hb & Hi). exists (fst pt), b. split; auto. eapply nth_error_In; eauto. Qed.
Lemma live_node r pt : Live p r pt -> node p r.
Proof.
  induction 1 as [pt i A R|b k i A N L IH|b bb s Hb Hs Hn L IH]; auto. apply (use_node i); [eapply at_prog; eauto|]. left. apply uses_reads; auto.
  apply (wf_nofix p i W). eapply at_prog; eauto.
Qed.
Lemma needed_live r pt : Needed p r pt -> Live p r pt.
Proof.
  induction 1 as [pt i A R|b k i A N L IH|b bb s Hb Hs Hn L IH].
  - eapply live_read; eauto.
  - eapply Ra_Spec.live_pass; eauto. intros Hw. apply (N r Hw). now left.
  - eapply live_edge; eauto.
Qed.

(* a register standing for another in the live set *)
Definition covers (r r' : nat) : Prop :=
  r' = r \/ (general r = true /\ general r' = true /\ hw r = hw r' /\ width (hwmode r) <= width (hwmode r')).

(* ---------- one instruction ---------- *)

Record Bi (s : st) (init : bset) : Prop := {
  b_gr : Gr p s;
  b_alias : alias s = repeat None nreg; b_coal : coal s = 0%N;
  b_simp : wlsimp s = []; b_freeze : wlfreeze s = []; b_spill : wlspill s = []; b_sel : selstk s = [];
  b_place : place s = repeat Pnull nreg; b_mact : mactive s = []; b_mset : mactiveset s = 0%N;
  b_rlen : length (rmoves s) = nreg;
  b_rprog : forall r m, In m (nth r (rmoves s) []) -> Pm p m;
  b_move : forall m, In m (wlmove s) -> Pm p m /\ bshas (wlmoveset s) (m_uid m) = true /\
     forall x, x = m_src m \/ x = m_dst m -> In m (nth x (rmoves s) []);
  b_init : forall r, bshas init r = true -> r < nreg /\ prepainted r = false /\ U r }.

Lemma Bi_graph s init s' g a d : Bi s init -> Gr p s' -> s' = set_graph s g a d -> Bi s' init.
Proof. intros [] G E. subst s'. split; auto. Qed.

Lemma edges_in dk : forall live s, Gr p s -> node p dk -> (forall r, In r live -> node p r) ->
  let s' := fold_left (fun s l => addedge p s dk l) live s in
  Gr p s' /\ (exists g a d, s' = set_graph s g a d) /\ (forall a b, edge s a b -> edge s' a b) /\
  (forall r, In r live -> allowed p dk r -> edge s' dk r).
Proof.
  induction live as [|r live IH]; intros s G Nd Nl; cbn [fold_left].
  - split; auto. split; [exists (gb s), (adj s), (deg s); destruct s; reflexivity|]. split; auto. intros r [].
  - destruct (addedge_spec p s dk r G Nd (Nl r (or_introl eq_refl))) as (G1 & (g & a & d & E1) & M1 & _ & A1 & _).
    destruct (IH _ G1 Nd (fun x Hx => Nl x (or_intror Hx))) as (G2 & (g' & a' & d' & E2) & M2 & A2).
    split; auto. split; [|split; auto].
    + exists g', a', d'. rewrite E2, E1. reflexivity.
    + intros x [<-|Hx] Ha; auto.
Qed.
Lemma edges_all live : (forall r, In r live -> node p r) -> forall ds s, Gr p s -> (forall d, In d ds -> node p d) ->
  let s' := fold_left (fun s dk => fold_left (fun s l => addedge p s dk l) live s) ds s in
  Gr p s' /\ (exists g a d, s' = set_graph s g a d) /\ (forall a b, edge s a b -> edge s' a b) /\
  (forall d r, In d ds -> In r live -> allowed p d r -> edge s' d r).
Proof.
  intros Nl. induction ds as [|dk ds IH]; intros s G Nd; cbn [fold_left].
  - split; auto. split; [exists (gb s), (adj s), (deg s); destruct s; reflexivity|]. split; auto. intros d r [].
  - destruct (edges_in dk live s G (Nd dk (or_introl eq_refl)) Nl) as (G1 & (g & a & d & E1) & M1 & A1).
    destruct (IH _ G1 (fun x Hx => Nd x (or_intror Hx))) as (G2 & (g' & a' & d' & E2) & M2 & A2).
    split; auto. split; [|split; auto].
    + exists g', a', d'. rewrite E2, E1. reflexivity.
    + intros x r [<-|Hx] Hr Ha; auto.
Qed.

Lemma put_init_spec l : forall b r, bshas (fold_left (fun b r => if prepainted r then b else bsput b r) l b) r = bshas b r || (negb (prepainted r) && existsb (Nat.eqb r) l).
Proof.
  induction l as [|x l IH]; intros b r; cbn [fold_left existsb]; [now rewrite andb_false_r, orb_false_r|]. rewrite IH. destruct (prepainted x) eqn:P.
  - destruct (Nat.eqb_spec r x) as [->|N]; cbn [orb]; auto. rewrite P. reflexivity.
  - rewrite has_put, (Nat.eqb_sym x r). destruct (Nat.eqb_spec r x) as [->|N]; cbn [orb]; auto. rewrite P. cbn. destruct (bshas b x); reflexivity.
Qed.

Definition added (rm : list (list mv)) (m : mv) (l : list nat) := fold_left (fun rm r => addrmove rm m r) l rm.
Lemma added_spec m l : forall rm, length (added rm m l) = length rm /\
  (forall r x, In x (nth r rm []) -> In x (nth r (added rm m l) [])) /\
  (forall r x, In x (nth r (added rm m l) []) -> In x (nth r rm []) \/ x = m) /\
  (forall r, In r l -> r < length rm -> In m (nth r (added rm m l) [])).
Proof.
  unfold added. induction l as [|y l IH]; intros rm; cbn [fold_left].
  - repeat split; auto. intros r [].
  - destruct (IH (addrmove rm m y)) as (L & H1 & H2 & H3).
    assert (Q : forall r x, In x (nth r (addrmove rm m y) []) <-> In x (nth r rm []) \/ (r = y /\ y < length rm /\ x = m)).
    { intros r x. unfold addrmove. rewrite nth_upd. destruct (Nat.eqb_spec y r) as [->|N]; cbn [andb].
      - destruct (Nat.ltb_spec r (length rm)); rewrite ?in_snoc; intuition lia.
      - intuition congruence. }
    assert (L' : length (addrmove rm m y) = length rm) by (unfold addrmove; now rewrite upd_length).
    split; [congruence|]. split; [intros r x Hx; apply H1, Q; auto|]. split.
    + intros r x Hx. apply H2 in Hx as [Hx|Hx]; auto. apply Q in Hx. tauto.
    + intros r [<-|Hr] Lr; [apply H1, Q; auto|apply H3; auto; lia].
Qed.

Definition kept (i : insn) (live : list nat) : list nat :=
  match ismove i with Some _ => fold_left del_use (uses i) live | None => live end.
Definition moveof (i : insn) : list mv := match ismove i with Some m => [m] | None => [] end.

Lemma del_uses_nodup l : forall s, NoDup s -> NoDup (fold_left del_use l s) /\ forall x, In x (fold_left del_use l s) -> In x s.
Proof.
  induction l as [|u l IH]; intros s N; cbn [fold_left]; auto. destruct (del_use_spec u s N) as [N1 H1]. destruct (IH _ N1) as [N2 H2].
  split; auto. intros x Hx. apply H2, H1 in Hx. tauto.
Qed.
Lemma kept_sub i live : NoDup live -> NoDup (kept i live) /\ forall x, In x (kept i live) -> In x live.
Proof. intros N. unfold kept. destruct (ismove i); auto. now apply del_uses_nodup. Qed.

Lemma build_insn_spec s init live i s' init' live' : in_prog p i -> Bi s init -> NoDup live -> (forall r, In r live -> node p r) ->
  build_insn p (s, init, live) i = (s', init', live') ->
  Bi s' init' /\ NoDup live' /\ (forall r, In r live' -> node p r) /\
  (forall a b, edge s a b -> edge s' a b) /\ (forall r, bshas init r = true -> bshas init' r = true) /\
  wlmove s' = wlmove s ++ moveof i /\
  (forall d r, In d (defs i) -> In r (kept i live) -> allowed p d r -> edge s' d r) /\
  (forall r, In r (uses i) \/ In r (defs i) -> prepainted r = false -> bshas init' r = true) /\
  (forall r, In r live' <-> In r (uses i) \/ (In r (kept i live) /\ ~ In r (defs i))).
Proof.
  intros Hi B NL Nl E. unfold build_insn in E. cbv zeta in E.
  set (init1 := fold_left _ (defs i) (fold_left _ (uses i) init)) in E.
  set (X := match ismove i with Some m => _ | None => _ end) in E.
  assert (XS : exists s1, X = (s1, kept i live) /\ Bi s1 init1 /\ gb s1 = gb s /\ wlmove s1 = wlmove s ++ moveof i).
  { assert (I1 : forall r, bshas init1 r = true -> r < nreg /\ prepainted r = false /\ U r).
    { intros r Hr. unfold init1 in Hr. rewrite !put_init_spec in Hr. rewrite !orb_true_iff, !andb_true_iff, !negb_true_iff, !existsb_eqb in Hr.
      destruct Hr as [[Hr|[Pr Hr]]|[Pr Hr]]; [now apply (b_init s init B)| |]; destruct (use_node i r Hi ltac:(auto)) as (L & _ & Ur); auto. }
    unfold X, kept, moveof. destruct (ismove i) as [m|] eqn:Em.
    - eexists. split; [reflexivity|]. fld. split; [|auto]. destruct B. 
      assert (PM : Pm p m) by (exists i; auto).
      destruct (added_spec m (uses i) (rmoves s)) as (L1 & A1 & A2 & A3).
      destruct (added_spec m (defs i) (added (rmoves s) m (uses i))) as (L2 & C1 & C2 & C3). fold (added (rmoves s) m (uses i)). fold (added (added (rmoves s) m (uses i)) m (defs i)).
      split; fld; auto.
      + now apply (Gr_ext p s).
      + congruence.
      + intros r x Hx. apply C2 in Hx as [Hx| ->]; auto. apply A2 in Hx as [Hx| ->]; eauto.
      + intros x Hx. apply in_snoc in Hx as [Hx| ->].
        * destruct (b_move0 x Hx) as (P1 & P2 & P3). split; auto. split; [rewrite has_put, P2; apply orb_true_r|]. intros y Hy. apply C1, A1. auto.
        * split; auto. split; [rewrite has_put, Nat.eqb_refl; reflexivity|].
          pose proof Em as Em'. unfold ismove in Em'. destruct (iop i) eqn:O; [|discriminate]. destruct (wf_mov p W i Hi O) as (a & b & Ab). rewrite Ab in Em'.
          destruct a as [a| | |]; try discriminate. destruct b as [b| | |]; try discriminate. injection Em' as <-. cbn [m_src m_dst m_uid] in *.
          pose proof (wf_nofix p i W Hi) as NF.
          assert (Ua : In a (uses i)). { apply uses_reads; auto. left. rewrite O. exists 1. split; [now left|]. unfold argreg. now rewrite Ab. }
          assert (Ub : In b (defs i)). { apply defs_writes; auto. left. rewrite O. exists 2. split; [now left|]. unfold argreg. now rewrite Ab. }
          intros y [->| ->]; [apply C1, A3; auto|apply C3; auto].
          -- rewrite b_rlen0. apply (use_node i a Hi). auto.
          -- rewrite L1, b_rlen0. apply (use_node i b Hi). auto.
    - exists s. split; auto. split; [|split; [auto|now rewrite app_nil_r]]. destruct B. split; auto. }
  destruct XS as (s1 & -> & B1 & G1 & W1). cbn [fst snd] in E.
  destruct (kept_sub i live NL) as [K1 K2].
  destruct (sputs_spec (defs i) (kept i live) K1) as [K3 K4]. set (live2 := fold_left (fun l r => sput r l) (defs i) (kept i live)) in *.
  assert (Nd : forall d, In d (defs i) -> node p d) by (intros; apply (use_node i); auto).
  assert (N2 : forall r, In r live2 -> node p r). { intros r Hr. apply K4 in Hr as [Hr|Hr]; auto. }
  destruct (edges_all live2 N2 (defs i) s1 (b_gr _ _ B1) Nd) as (G2 & (g & a & d & E2) & M2 & A2).
  set (s2 := fold_left (fun s dk => fold_left _ live2 s) (defs i) s1) in *.
  destruct (sdels_spec (defs i) live2 K3) as [K5 K6]. set (live3 := fold_left (fun l r => sdel r l) (defs i) live2) in *.
  destruct (sputs_spec (uses i) live3 K5) as [K7 K8]. set (live4 := fold_left (fun l r => sput r l) (uses i) live3) in *.
  injection E as <- <- <-.
  assert (LV : forall r, In r live4 <-> In r (uses i) \/ (In r (kept i live) /\ ~ In r (defs i))).
  { intros r. rewrite K8, K6, K4. tauto. }
  split; [eapply Bi_graph; eauto|]. split; auto. split.
  { intros r Hr. apply LV in Hr as [Hr|[Hr _]]; [apply (use_node i); auto|auto]. }
  split; [intros x y Hxy; apply M2; unfold edge, gbhasedge; now rewrite G1|]. split.
  { intros r Hr. unfold init1. rewrite !put_init_spec, Hr. reflexivity. }
  split; [rewrite E2; auto|]. split; [intros x r Hx Hr; apply A2; auto; apply K4; auto|]. split; auto.
  intros r Hr Pr. unfold init1. rewrite !put_init_spec, Pr. cbn [negb andb]. rewrite !orb_true_iff, !existsb_eqb. tauto.
Qed.

(* ---------- one block ---------- *)

Definition Cov (b k : nat) (live : list nat) : Prop := forall r, Needed p r (b, k) -> exists r', In r' live /\ covers r r'.

Lemma general_namable r : general r = true -> r < nphys.
Proof. intros H. apply general_lt in H. unfold nphys. lia. Qed.

(* what copying out of src drops from the live set *)
Lemma kept_move b k i src dst live r r' : clean_copies p -> insn_at p (b, k) i -> copies i src dst -> NoDup live -> Needed p r (b, S k) -> In r' live -> node p r' -> covers r r' ->
  In r' (kept i live) \/ (same_storage src r /\ covers r src).
Proof.
  intros CC A C NL Nr Hr' Nd Cv. pose proof (at_prog _ _ A) as Hi. pose proof (wf_nofix p i W Hi) as NF. pose proof C as [O Ag].
  assert (Us : uses i = [src]).
  { unfold uses. rewrite O, Ag. cbn [op_ul op_ur argregs flat_map nth_error Nat.sub app]. rewrite NF; [reflexivity|]. left. exists (Lreg src). rewrite Ag. cbn. auto. }
  unfold kept, ismove. rewrite O, Ag, Us. cbn [fold_left]. destruct (del_use_spec src live NL) as [_ D].
  destruct (in_dec Nat.eq_dec r' (del_use live src)) as [Y|Y]; [auto|]. right. rewrite D in Y.
  destruct (prepainted src) eqn:Ps.
  - assert (Q : exists a, In a (seq 0 Nmode) /\ regmap (colourmap src) a = r').
    { destruct (existsb (fun a => regmap (colourmap src) a =? r') (seq 0 Nmode)) eqn:Q.
      - apply existsb_exists in Q as (a & Ha & Q). apply Nat.eqb_eq in Q. eauto.
      - exfalso. apply Y. split; auto. intros (a & Ha & E). assert (existsb (fun a => regmap (colourmap src) a =? r') (seq 0 Nmode) = true); [|congruence].
        apply existsb_exists. exists a. split; auto. now apply Nat.eqb_eq. }
    destruct Q as (a & _ & Ea).
    assert (Z : r' <> 0). { intros ->. destruct Nd as (_ & Nd & _). specialize (Nd eq_refl). discriminate Nd. }
    destruct (regmap_entry (colourmap src) a ltac:(congruence)) as (_ & Gr' & Cr' & _). rewrite Ea in Gr', Cr'.
    assert (Gr : general r = true) by (destruct Cv as [->|(G & _)]; auto).
    assert (Hrr : hw r = hw r') by (destruct Cv as [->|(_ & _ & H & _)]; auto).
    pose proof (proj1 (prep_phys src) Ps) as Ls.
    destruct (CC b k i src dst r A C Ls (general_namable r Gr) Nr) as (C1 & C2 & C3 & C4).
    assert (Ns : namable src = true). { apply (wf_regs p W i src Hi); auto. left. exists (Lreg src). rewrite Ag. cbn. auto. }
    unfold namable in Ns. apply orb_true_iff in Ns as [Gs|Fs].
    + assert (Hs : hw r' = hw src) by (apply colourmap_hw; auto). 
      split; [right; split; auto; split; [apply general_namable; auto|congruence]|].
      right. split; auto. split; auto. split; [congruence|]. apply C1. congruence.
    + exfalso. destruct (row_frame src r' Fs Gr' Cr') as [[E H]|[[E H]|[E H]]]; [apply C2|apply C3|apply C4]; auto; congruence.
  - assert (Er : r' = src). { destruct (Nat.eq_dec r' src); auto. exfalso. apply Y. auto. }
    subst r'. destruct Cv as [->|(_ & G & _)]; [split; now left|]. apply general_prepainted in G. congruence.
Qed.

Lemma cov_step b k i live live' : clean_copies p -> insn_at p (b, k) i -> NoDup live -> (forall r, In r live -> node p r) -> Cov b (S k) live ->
  (forall r, In r live' <-> In r (uses i) \/ (In r (kept i live) /\ ~ In r (defs i))) -> Cov b k live'.
Proof.
  intros CC A NL Nl C L r Hr. pose proof (at_prog _ _ A) as Hi. pose proof (wf_nofix p i W Hi) as NF.
  assert (Q : reads i r \/ ((forall d, writes i d -> ~ kills d r) /\ Needed p r (b, S k))).
  { inversion Hr as [pt j Aj Rj|b' k' j Aj Nj Lj|b' bb s Hb Hs Hn Ls]; subst.
    - left. assert (j = i); [|now subst]. destruct A as (x & X1 & X2), Aj as (y & Y1 & Y2). congruence.
    - right. assert (j = i). { destruct A as (x & X1 & X2), Aj as (y & Y1 & Y2). congruence. } subst j. auto.
    - exfalso. destruct A as (x & X1 & X2). cbn [fst snd] in X1, X2. assert (x = bb) by congruence. subst x.
      assert (length (il bb) < length (il bb)); [|lia]. apply nth_error_Some. congruence. }
  destruct Q as [Q|[Q1 Q2]]; [exists r; split; [|now left]; apply L; left; now apply uses_reads|].
  destruct (C r Q2) as (r' & Hr' & Cv).
  assert (K : In r' (kept i live) \/ exists src dst, copies i src dst /\ covers r src).
  { unfold kept. destruct (ismove i) as [m|] eqn:Em; [|auto]. pose proof Em as Em'. unfold ismove in Em'. destruct (iop i) eqn:O; [|discriminate].
    destruct (wf_mov p W i Hi O) as (a & c & Ac). rewrite Ac in Em'. destruct a as [a| | |]; try discriminate. destruct c as [c| | |]; try discriminate.
    destruct (kept_move b k i a c live r r' CC A ltac:(split; auto) NL Q2 Hr' (Nl _ Hr') Cv) as [K|[_ K]].
    - unfold kept in K. rewrite Em in K. auto.
    - right. exists a, c. split; auto. split; auto. }
  destruct K as [K|(src & dst & [O Ag] & K)].
  - exists r'. split; auto. apply L. right. split; auto. intros Hd. apply defs_writes in Hd; auto. apply (Q1 r' Hd).
    destruct Cv as [->|(G1 & G2 & H1 & H2)]; [now left|]. right. split; [now apply general_namable|]. split; [now apply general_namable|]. auto.
  - exists src. split; auto. apply L. left. apply uses_reads; auto. left. rewrite O. exists 1. split; [now left|]. unfold argreg. now rewrite Ag.
Qed.

(* the conflicts of instruction k of block b have their edges *)
Definition Joined (s : st) (b k : nat) : Prop := forall i d r, insn_at p (b, k) i -> writes i d -> Needed p r (b, S k) ->
  ~ (exists src, copies i src d /\ same_storage src r) -> exists r', node p r' /\ covers r r' /\ (allowed p d r' -> edge s d r').
Definition Seen (init : bset) (b k : nat) : Prop := forall i r, insn_at p (b, k) i -> In r (uses i) \/ In r (defs i) -> prepainted r = false -> bshas init r = true.

Lemma joined_mono s s' b k : (forall x y, edge s x y -> edge s' x y) -> Joined s b k -> Joined s' b k.
Proof. intros M H i d r A1 A2 A3 A4. destruct (H i d r A1 A2 A3 A4) as (r' & N & C & E). exists r'. auto. Qed.

Lemma firstn_snoc (A : Type) (l : list A) k x : nth_error l k = Some x -> firstn (S k) l = firstn k l ++ [x].
Proof. revert k; induction l as [|y l IH]; intros [|k] E; cbn in E; try discriminate; [injection E as ->; reflexivity|]. change (firstn (S (S k)) (y :: l)) with (y :: firstn (S k) l). now rewrite (IH k E). Qed.

Lemma build_insns b bb : blk p b = Some bb -> forall k s init live s' init' live', k <= length (il bb) -> Bi s init -> NoDup live ->
  (forall r, In r live -> node p r) ->
  fold_left (build_insn p) (rev (firstn k (il bb))) (s, init, live) = (s', init', live') ->
  Bi s' init' /\ (forall x y, edge s x y -> edge s' x y) /\ (forall r, bshas init r = true -> bshas init' r = true) /\
  wlmove s' = wlmove s ++ flat_map moveof (rev (firstn k (il bb))) /\
  (forall k', k' < k -> (clean_copies p -> Cov b k live -> Joined s' b k') /\ Seen init' b k').
Proof.
  intros Hb. induction k as [|k IH]; intros s init live s' init' live' Hk B NL Nl E.
  - cbn in E. injection E as <- <- <-. split; auto. split; auto. split; auto. split; [now rewrite app_nil_r|]. lia.
  - destruct (nth_error (il bb) k) as [i|] eqn:Ei; [|apply nth_error_None in Ei; lia].
    rewrite (firstn_snoc _ _ _ _ Ei), rev_app_distr in E |- *. cbn [rev app fold_left flat_map] in E |- *.
    assert (A : insn_at p (b, k) i) by (exists bb; auto). pose proof (at_prog _ _ A) as Hi. pose proof (wf_nofix p i W Hi) as NF.
    destruct (build_insn p (s, init, live) i) as [[s1 init1] live1] eqn:E1.
    destruct (build_insn_spec s init live i s1 init1 live1 Hi B NL Nl E1) as (B1 & NL1 & Nl1 & M1 & I1 & W1 & D1 & U1 & L1).
    destruct (IH s1 init1 live1 s' init' live' ltac:(lia) B1 NL1 Nl1 E) as (B2 & M2 & I2 & W2 & J2).
    split; auto. split; auto. split; auto. split; [rewrite W2, W1; now rewrite app_assoc|].
    intros k' Hk'. destruct (Nat.eq_dec k' k) as [->|Ne].
    2: { destruct (J2 k' ltac:(lia)) as [J3 J4]. split; auto. intros CC C. apply J3; auto. apply (cov_step b k i live live1 CC A NL Nl C L1). }
    split.
    + intros CC C. apply (joined_mono s1); auto. intros j d r Aj Wd Nr Nc.
      assert (j = i). { destruct A as (x & X1 & X2), Aj as (y & Y1 & Y2). congruence. } subst j.
      destruct (C r Nr) as (r' & Hr' & Cv). exists r'. split; auto. split; auto. intros Al. apply D1; auto; [now apply defs_writes|].
      unfold kept. destruct (ismove i) as [m|] eqn:Em; auto. pose proof Em as Em'. unfold ismove in Em'. destruct (iop i) eqn:O; [|discriminate].
      destruct (wf_mov p W i Hi O) as (a & c & Ac). rewrite Ac in Em'. destruct a as [a| | |]; try discriminate. destruct c as [c| | |]; try discriminate.
      destruct (kept_move b k i a c live r r' CC A ltac:(split; auto) NL Nr Hr' (Nl _ Hr') Cv) as [K|[K _]].
      * unfold kept in K. rewrite Em in K. auto.
      * exfalso. apply Nc. exists a. split; auto. split; auto. rewrite Ac. f_equal. f_equal. f_equal.
        destruct Wd as [(q & Hq & Ag)|Wd]; [|rewrite O in Wd; destruct Wd]. rewrite O in Hq. destruct Hq as [<-|[]]. unfold argreg in Ag. rewrite Ac in Ag. cbn in Ag. congruence.
    + intros j r Aj Hr Pr. assert (j = i). { destruct A as (x & X1 & X2), Aj as (y & Y1 & Y2). congruence. } subst j. apply I2, U1; auto.
Qed.

(* ---------- all blocks ---------- *)

Variable outs : list bset.
Hypothesis LV : forall b bb r, blk p b = Some bb -> bshas (nth b outs 0%N) r = true -> Live p r (b, length (il bb)).
(* what the graph needs to cover all conflicts: every live register is in the computed sets *)
Definition Exact : Prop := clean_copies p /\ forall b bb r, blk p b = Some bb -> Live p r (b, length (il bb)) -> bshas (nth b outs 0%N) r = true.

Definition insnsof (b : nat) : list insn := match blk p b with Some bb => rev (il bb) | None => [] end.

Lemma build_block_spec b s init s' init' : Bi s init -> build_block p outs (s, init) b = (s', init') ->
  Bi s' init' /\ (forall x y, edge s x y -> edge s' x y) /\ (forall r, bshas init r = true -> bshas init' r = true) /\
  wlmove s' = wlmove s ++ flat_map moveof (insnsof b) /\ (forall k, (Exact -> Joined s' b k) /\ Seen init' b k).
Proof.
  intros B E. unfold build_block in E. unfold insnsof. destruct (blk p b) as [bb|] eqn:Hb.
  - set (live := fold_left _ (members nreg (nth b outs 0%N)) []) in E.
    destruct (sputs_spec (members nreg (nth b outs 0%N)) [] (NoDup_nil _)) as [NL HL]. fold live in NL, HL.
    destruct (fold_left (build_insn p) (rev (il bb)) (s, init, live)) as [[s1 init1] live1] eqn:E1. injection E as <- <-.
    assert (Nl : forall r, In r live -> node p r).
    { intros r Hr. apply HL in Hr as [[]|Hr]. apply in_members in Hr as [_ Hr]. apply (LV b bb r Hb) in Hr. eapply live_node; eauto. }
    assert (C : Exact -> Cov b (length (il bb)) live).
    { intros [_ LC] r Hr. apply needed_live in Hr. exists r. split; [|now left]. apply HL. right. apply in_members. split; [|now apply (LC b bb)]. eapply live_node; eauto. }
    rewrite <- (firstn_all (il bb)) in E1 at 1.
    destruct (build_insns b bb Hb (length (il bb)) s init live s1 init1 live1 (le_n _) B NL Nl E1) as (B1 & M1 & I1 & W1 & J1).
    rewrite firstn_all in W1. split; auto. split; auto. split; auto. split; auto. intros k.
    destruct (Nat.lt_ge_cases k (length (il bb))) as [Lk|Lk]; [destruct (J1 k Lk) as [J2 J3]; split; auto; intros X; apply J2; [apply X|auto]|].
    assert (NA : forall i, ~ insn_at p (b, k) i). { intros i (x & X1 & X2). cbn [fst snd] in X1, X2. assert (x = bb) by congruence. subst x. assert (nth_error (il bb) k <> None) by congruence. apply nth_error_Some in H. lia. }
    split; [intros _ i d r A; now apply NA in A|intros i r A; now apply NA in A].
  - injection E as <- <-. split; auto. split; auto. split; auto. split; [cbn; now rewrite app_nil_r|]. intros k.
    split; [intros _ i d r (x & X1 & X2); cbn [fst] in X1; congruence|intros i r (x & X1 & X2); cbn [fst] in X1; congruence].
Qed.

Lemma build_blocks : forall l s init s' init', Bi s init -> fold_left (build_block p outs) l (s, init) = (s', init') ->
  Bi s' init' /\ (forall x y, edge s x y -> edge s' x y) /\ (forall r, bshas init r = true -> bshas init' r = true) /\
  wlmove s' = wlmove s ++ flat_map moveof (flat_map insnsof l) /\ (forall b k, In b l -> (Exact -> Joined s' b k) /\ Seen init' b k).
Proof.
  induction l as [|b l IH]; intros s init s' init' B E; cbn [fold_left] in E.
  - injection E as <- <-. split; auto. split; auto. split; auto. split; [cbn; now rewrite app_nil_r|]. intros b k [].
  - destruct (build_block p outs (s, init) b) as [s1 init1] eqn:E1. destruct (build_block_spec b s init s1 init1 B E1) as (B1 & M1 & I1 & W1 & J1).
    destruct (IH s1 init1 s' init' B1 E) as (B2 & M2 & I2 & W2 & J2). split; auto. split; auto. split; auto.
    split; [rewrite W2, W1; cbn [flat_map]; rewrite flat_map_app; now rewrite app_assoc|].
    intros c k [<-|Hc]; auto. destruct (J1 k) as [J S]. split; [intros X; apply (joined_mono s1); auto|]. intros i r A1 A2 A3. apply I2. eapply S; eauto.
Qed.

Lemma setup_Bi : Bi (setup p) 0%N.
Proof.
  assert (E : forall u v, ~ edge (setup p) u v).
  { intros u v H. unfold edge, gbhasedge, rowhas, setup in H. fld. rewrite nth_repeat_any, has_0 in H. discriminate. }
  unfold setup. split; fld; rewrite ?repeat_length; auto.
  - split; fld; rewrite ?repeat_length; auto.
    + intros u v H. now apply E in H. + intros u v H. now apply E in H.
    + intros u v _ _. rewrite nth_repeat_any. split; [intros []|]. intros H. now apply E in H.
  - intros r m. rewrite nth_repeat_any. intros [].
  - intros m [].
  - intros r. rewrite has_0. discriminate.
Qed.

(* distinct moves *)
Lemma nodup_moves l : NoDup l -> NoDup (map m_uid (flat_map moveof (flat_map insnsof l))).
Proof.
  assert (MU : forall i m, ismove i = Some m -> m_uid m = uid i).
  { intros i m. unfold ismove. destruct (iop i); [|discriminate]. destruct (args i) as [|[] [|[] ?]]; try discriminate. intros E. now injection E as <-. }
  assert (S : forall l x, In x (map m_uid (flat_map moveof l)) -> In x (map uid l)).
  { intros k x Hx. apply in_map_iff in Hx as (m & <- & Hm). apply in_flat_map in Hm as (i & Hi & Hm). unfold moveof in Hm. destruct (ismove i) as [m'|] eqn:Em; [|destruct Hm].
    destruct Hm as [->|[]]. rewrite (MU i m Em). now apply in_map. }
  assert (ND : forall l, NoDup (map uid l) -> NoDup (map m_uid (flat_map moveof l))).
  { induction l0 as [|i k IH]; cbn [map flat_map]; [constructor|]. intros N. apply NoDup_cons_iff in N as [N1 N2]. unfold moveof at 1. destruct (ismove i) as [m|] eqn:Em; cbn [app map]; auto.
    constructor; auto. rewrite (MU i m Em). intros Hc. apply N1. now apply S. }
  intros Nl. apply ND. induction l as [|b l IH]; cbn [flat_map map]; [constructor|]. apply NoDup_cons_iff in Nl as [N1 N2]. rewrite map_app. apply nodup_app_r; auto.
  - unfold insnsof. destruct (blk p b) as [bb|] eqn:Hb; [|constructor]. rewrite map_rev. apply NoDup_rev. apply NoDup_nth_error. intros i j Hi E.
    rewrite map_length in Hi. destruct (nth_error (il bb) i) as [x|] eqn:Ex; [|apply nth_error_None in Ex; lia].
    rewrite (map_nth_error uid _ _ Ex) in E. destruct (nth_error (il bb) j) as [y|] eqn:Ey.
    + rewrite (map_nth_error uid _ _ Ey) in E. injection E as E. now destruct (wf_uid p W b b bb bb i j x y Hb Hb Ex Ey E).
    + apply nth_error_None in Ey. assert (Q : nth_error (map uid (il bb)) j = None) by (apply nth_error_None; now rewrite map_length). congruence.
  - intros x Hx Hc. apply in_map_iff in Hx as (i & <- & Hi). apply in_map_iff in Hc as (j & Ej & Hj). apply in_flat_map in Hj as (c & Hc & Hj).
    unfold insnsof in Hi, Hj. destruct (blk p b) as [bb|] eqn:Hb; [|destruct Hi]. destruct (blk p c) as [cc|] eqn:Hcc; [|destruct Hj].
    apply in_rev in Hi. apply in_rev in Hj. apply In_nth_error in Hi as (k & Hk). apply In_nth_error in Hj as (k' & Hk').
    destruct (wf_uid p W b c bb cc k k' i j Hb Hcc Hk Hk' ltac:(auto)) as [-> _]. tauto.
Qed.

(* ---------- the worklists at the start ---------- *)

Lemma Wl_fresh s i : Wl p None s -> i < nreg -> prepainted i = false -> bshas (coal s) i = false ->
  ~ In i (wlsimp s) -> ~ In i (wlfreeze s) -> ~ In i (wlspill s) -> ~ In i (selstk s) -> Wl p None (put_spill s i) /\ Wl p None (put_freeze s i).
Proof.
  intros H L P C N1 N2 N3 N4. pose proof (w_len p None s H) as PL. destruct (w_spill p None s H) as [S1 S2]. destruct (w_freeze p None s H) as [F1 F2].
  assert (RG : forall z, In z (wlsimp s) \/ In z (wlfreeze s) \/ In z (wlspill s) \/ In z (selstk s) -> z < nreg) by (intros z Hz; now apply (w_rng p None s H)).
  assert (Q : forall x z, z < nreg -> nth z (upd (place s) i x) Pnull = if i =? z then x else nth z (place s) Pnull).
  { intros x z Hz. rewrite nth_upd, PL. destruct (Nat.eqb_spec i z) as [->|N]; cbn [andb]; auto. apply Nat.ltb_lt in Hz. now rewrite Hz. }
  assert (NE : forall l z, ~ In i l -> In z l -> (i =? z) = false) by (intros l z A B; apply Nat.eqb_neq; intros ->; tauto).
  split; split; fld; rewrite ?upd_length; auto.
  - split; [now apply nodup_snoc|]. intros z Hz. apply in_snoc in Hz as [Hz| ->]; rewrite Q by auto; [rewrite (NE _ _ N3 Hz); auto|now rewrite Nat.eqb_refl].
  - split; auto. intros z Hz. rewrite Q, (NE _ _ N2 Hz) by auto. auto.
  - intros z Hz. rewrite Q, (NE _ _ N1 Hz) by auto. now apply (w_simp p None s H).
  - intros z Hz. rewrite Q by auto. destruct (Nat.eqb_spec i z) as [->|N]; [split; [discriminate|tauto]|]. now apply (w_sel p None s H).
  - intros z Hz. rewrite in_snoc in Hz. destruct (Nat.eq_dec z i) as [->|N]; auto. apply (w_rng p None s H). tauto.
  - intros z Hz Nz. rewrite <- (w_mv p None s H z Hz Nz). now apply moverelated_ext.
  - split; auto. intros z Hz. rewrite Q, (NE _ _ N3 Hz) by auto. auto.
  - split; [now apply nodup_snoc|]. intros z Hz. apply in_snoc in Hz as [Hz| ->]; rewrite Q by auto; [rewrite (NE _ _ N2 Hz); auto|now rewrite Nat.eqb_refl].
  - intros z Hz. rewrite Q, (NE _ _ N1 Hz) by auto. now apply (w_simp p None s H).
  - intros z Hz. rewrite Q by auto. destruct (Nat.eqb_spec i z) as [->|N]; [split; [discriminate|tauto]|]. now apply (w_sel p None s H).
  - intros z Hz. rewrite in_snoc in Hz. destruct (Nat.eq_dec z i) as [->|N]; auto. apply (w_rng p None s H). tauto.
  - intros z Hz Nz. rewrite <- (w_mv p None s H z Hz Nz). now apply moverelated_ext.
Qed.

Definition onlist (s : st) (z : nat) : Prop := In z (wlsimp s) \/ In z (wlfreeze s) \/ In z (wlspill s) \/ In z (selstk s).
Definition wlstep (s : st) (i : nat) : st :=
  if prepainted i then s else if negb (istrivial p s i) then put_spill s i else if moverelated s i then put_freeze s i else put_simp s i.
Lemma wlsteps : forall l s, NoDup l -> Wl p None s -> coal s = 0%N -> (forall i, In i l -> i < nreg /\ prepainted i = false /\ ~ onlist s i) ->
  let s' := fold_left wlstep l s in
  Wl p None s' /\ same_core s s' /\ wlmove s' = wlmove s /\ mactive s' = mactive s /\ wlmoveset s' = wlmoveset s /\ mactiveset s' = mactiveset s /\
  (forall z, In z l \/ onlist s z -> onlist s' z).
Proof.
  induction l as [|i l IH]; intros s Nl H C Hl; cbn [fold_left].
  - split; auto. split; [apply same_core_refl|]. repeat split; auto. intros z [[]|Hz]; auto.
  - apply NoDup_cons_iff in Nl as [Ni Nl]. destruct (Hl i (or_introl eq_refl)) as (Li & Pi & Oi).
    assert (Ci : bshas (coal s) i = false) by (rewrite C; apply has_0).
    assert (Q : Wl p None (wlstep s i) /\ same_core s (wlstep s i) /\ wlmove (wlstep s i) = wlmove s /\ mactive (wlstep s i) = mactive s /\
      wlmoveset (wlstep s i) = wlmoveset s /\ mactiveset (wlstep s i) = mactiveset s /\ (forall z, onlist (wlstep s i) z <-> onlist s z \/ z = i)).
    { unfold onlist in Oi. destruct (Wl_fresh s i H Li Pi Ci) as [W1 W2]; try tauto. unfold wlstep. rewrite Pi. destruct (istrivial p s i); cbn [negb].
      - destruct (moverelated s i) eqn:Mr.
        + split; [exact W2|]. repeat split; unfold onlist; fld; rewrite ?in_snoc; tauto.
        + split; [apply (Wl_to_simp p None s s i H); [right; right; tauto|auto..]|]. repeat split; unfold onlist; fld; rewrite ?in_snoc; tauto.
      - split; [exact W1|]. repeat split; unfold onlist; fld; rewrite ?in_snoc; tauto. }
    destruct Q as (W1 & S1 & A1 & A2 & A3 & A4 & O1).
    destruct (IH (wlstep s i) Nl W1) as (W2 & S2 & B1 & B2 & B3 & B4 & O2).
    + destruct S1 as (_ & _ & S1 & _). congruence.
    + intros z Hz. destruct (Hl z (or_intror Hz)) as (Lz & Pz & Oz). split; auto. split; auto. rewrite O1. intros [Hc| ->]; tauto.
    + split; auto. split; [exact (same_core_trans _ _ _ S1 S2)|]. split; [congruence|]. split; [congruence|]. split; [congruence|]. split; [congruence|].
      intros z Hz. apply O2. rewrite O1. destruct Hz as [[->|Hz]|Hz]; auto.
Qed.

Theorem build_full : forall s init, build p outs (setup p) 0%N = (s, init) ->
  Full p None (mkworklist p s init) /\ gb (mkworklist p s init) = gb s /\ (Exact -> forall b k, b < length (blocks p) -> Joined (mkworklist p s init) b k).
Proof.
  intros s init E. unfold build in E. destruct (build_blocks _ _ _ _ _ setup_Bi E) as (B & _ & _ & Wm & J). cbn [setup wlmove app] in Wm.
  set (s1 := mkworklist p s init).
  assert (Hm : s1 = fold_left wlstep (members nreg init) s) by reflexivity.
  assert (RP : forall x, getalias p s x = x) by (intros x; apply follow_stop; rewrite (b_alias _ _ B); apply nth_repeat_any).
  assert (MR : Wl p None s).
  { destruct B. split.
    - rewrite b_place0, repeat_length. auto.
    - rewrite b_spill0. split; [constructor|intros z []].
    - rewrite b_freeze0. split; [constructor|intros z []].
    - rewrite b_simp0. intros z [].
    - intros z Hz. rewrite b_place0, b_sel0, nth_repeat_any. split; [discriminate|intros []].
    - rewrite b_simp0, b_freeze0, b_spill0, b_sel0. intros z [[]|[[]|[[]|[]]]].
    - rewrite b_simp0, b_sel0. intros z [[]|[]]. }
  destruct (wlsteps (members nreg init) s) as (W1 & S1 & A1 & A2 & A3 & A4 & O1); auto.
  { unfold Cfg_Model.members. apply NoDup_filter, seq_NoDup. }
  { apply B. }
  { intros i Hi. apply in_members in Hi as [_ Hi]. destruct (b_init _ _ B i Hi) as (L & P & _). split; auto. split; auto. unfold onlist.
    rewrite (b_simp _ _ B), (b_freeze _ _ B), (b_spill _ _ B), (b_sel _ _ B). cbn. tauto. }
  rewrite <- Hm in *. pose proof S1 as (C1 & C2 & C3 & C4 & C5 & C6).
  assert (A : Al p s).
  { pose proof (b_alias _ _ B) as Ea. pose proof (b_coal _ _ B) as Ec. split; rewrite ?Ea, ?Ec.
    - apply repeat_length.
    - intros v. rewrite nth_repeat_any, has_0. split; [discriminate|congruence].
    - intros v u. rewrite nth_repeat_any. discriminate.
    - exists 0. split; [pose proof (filter_le nat (fun x => negb (bshas (coal s) x)) (seq 0 nreg)) as Q; rewrite seq_length in Q; exact Q|]. intros x. apply nth_repeat_any. }
  assert (G : Gr p s) by apply B.
  assert (D : Good p s).
  { intros x y Hxy. rewrite !RP, (b_sel _ _ B). destruct (g_edge p s G x y Hxy) as (_ & Ne & _ & PP & _). split; auto. split.
    - intros l1 l2 Hl. destruct l1; discriminate Hl.
    - intros _ _. rewrite PP. auto. }
  destruct (core_ext p s s1 S1 A G D (b_rlen _ _ B)) as (A' & G' & D' & L').
  split.
  - split; auto. split; auto. split.
    + split; rewrite ?A1, ?A2, ?A3, ?A4, ?C6, ?(b_mact _ _ B), ?(b_mset _ _ B), ?app_nil_r.
      * rewrite Wm. apply nodup_moves, seq_NoDup.
      * intros m Hx. now apply (b_move _ _ B).
      * apply (b_rprog _ _ B).
      * intros m Hx. now apply (b_move _ _ B).
      * intros m [].
      * intros u _. apply has_0.
      * intros m x Hx Hy. right. exists m. split; auto. rewrite (rep_ext p s s1 x C4), RP. now apply (b_move _ _ B).
    + intros r (i & (b & bb & Hb & Hi) & Hr) Pr. apply In_nth_error in Hi as (k & Hk).
      assert (Sn : Seen init b k). { apply J. apply in_seq. pose proof (blk_lt p b bb Hb). lia. }
      assert (bshas init r = true) as Hin by (apply (Sn i r); [exists bb; auto|auto|auto]).
      destruct (O1 r) as [H|[H|[H|H]]]; [left; apply in_members; split; auto; now apply (b_init _ _ B)|..]; unfold Placed; tauto.
  - split; auto. intros X b k Hb. apply (joined_mono s); [intros x y; unfold edge, gbhasedge; now rewrite C1|]. apply J; auto. apply in_seq. lia.
Qed.

End Build.
