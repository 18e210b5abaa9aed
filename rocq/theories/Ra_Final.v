(* Register allocator: from the graph to the final assignment. *)
From Verif Require Import Base Cfg_Reach Ra_Spec Ra_Model Ra_Live Ra_Tables Ra_Wl Ra_Core Ra_Steps Ra_Build Ra_Paint.
Import Ra_Spec Ra_Model.

(* ---------- edges are never removed ---------- *)

Definition grows (s s' : st) : Prop := forall a b, edge s a b -> edge s' a b.
Lemma grows_eq s s' : gb s' = gb s -> grows s s'.
Proof. intros E a b. unfold edge, gbhasedge. now rewrite E. Qed.
Lemma grows_trans a b c : grows a b -> grows b c -> grows a c.
Proof. intros A B x y H. auto. Qed.
Lemma gput_grows g u v a b : rowhas g a b = true -> rowhas (gput g u v) a b = true.
Proof.
  intros H.
  assert (Q : forall g x y, rowhas g a b = true -> rowhas (upd g x (bsput (nth x g 0%N) y)) a b = true).
  { intros h x y Hh. unfold rowhas in *. rewrite nth_upd. destruct (Nat.eqb_spec x b) as [->|N]; cbn [andb]; auto.
    destruct (b <? length h); auto. rewrite has_put, Hh. apply orb_true_r. }
  unfold gput. now apply Q, Q.
Qed.
Lemma enable1_gb s m : gb (enable1 s m) = gb s.
Proof. unfold enable1. destruct (bshas _ _); auto. destruct (delskip _ _) as [l c]. destruct (c =? 0); auto. Qed.
Lemma enablemove_gb s n : gb (enablemove s n) = gb s.
Proof. unfold enablemove. set (l := nodemoves s n). clearbody l. revert s. induction l as [|m l IH]; intros s; cbn [fold_left]; auto. now rewrite IH, enable1_gb. Qed.
Lemma enableadj_gb l : forall s, gb (fold_left (fun s n => if adjavail s n then enablemove s n else s) l s) = gb s.
Proof. induction l as [|m l IH]; intros s; cbn [fold_left]; auto. rewrite IH. destruct (adjavail s m); auto. apply enablemove_gb. Qed.

Section Final.
Variable p : prog.

Lemma decdegree_gb s m s' : decdegree p s m = Some s' -> gb s' = gb s.
Proof.
  unfold decdegree. destruct (_ <=? _); [discriminate|]. cbv zeta. destruct (Bool.eqb _ _); [intros E; injection E as <-; auto|].
  set (s1 := set_deg s _). set (s2 := fold_left _ _ (enablemove s1 m)).
  assert (G : gb s2 = gb s) by (unfold s2; rewrite enableadj_gb, enablemove_gb; reflexivity). clearbody s2.
  destruct (wlfind (wlspill s2) m); destruct (moverelated _ m).
  - intros E; injection E as <-; auto. - intros E; injection E as <-; auto.
  - destruct (wlfind _ _); [|discriminate]. intros E; injection E as <-; auto.
  - destruct (wlfind _ _); [|discriminate]. intros E; injection E as <-; auto.
Qed.
Lemma addedge_grows s u v : grows s (addedge p s u v).
Proof.
  unfold addedge. destruct (_ || _); [apply grows_eq; auto|]. destruct (fixedreg u); [apply grows_eq; auto|]. destruct (fixedreg v); [apply grows_eq; auto|].
  destruct (negb _); [apply grows_eq; auto|]. destruct (prepainted u && prepainted v); [apply grows_eq; auto|]. cbv zeta.
  destruct (prepainted u), (prepainted v); intros a b H; unfold edge, gbhasedge in *; cbn [gb set_graph]; now apply gput_grows, gput_grows.
Qed.
Lemma for_avail_grows f : (forall s t s', f s t = Some s' -> grows s s') -> forall l s s', for_avail f s l = Some s' -> grows s s'.
Proof.
  intros H l s s' E. apply (for_avail_ind (fun x => grows s x) f) with (l := l) (s := s); auto.
  - intros a t b G _ Eb. eapply grows_trans; eauto.
  - now apply grows_eq.
Qed.
Lemma wladd_grows s u s' : wladd p s u = Some s' -> grows s s'.
Proof.
  unfold wladd. destruct (prepainted u); [intros E; injection E as <-; now apply grows_eq|]. destruct (moverelated s u); [intros E; injection E as <-; now apply grows_eq|].
  destruct (negb _); [intros E; injection E as <-; now apply grows_eq|]. destruct (_ || _); [|discriminate]. destruct (wlfind _ _); intros E; injection E as <-; now apply grows_eq.
Qed.
Lemma freezes_grows u l : forall s s', fold_left (freeze1 p u) l (Some s) = Some s' -> grows s s'.
Proof.
  induction l as [|m l IH]; intros s s' E; cbn [fold_left] in E; [injection E as <-; now apply grows_eq|].
  destruct (freeze1 p u (Some s) m) as [s1|] eqn:E1.
  - apply grows_trans with s1; [|apply IH; exact E]. unfold freeze1, bind in E1. cbv zeta in E1.
    assert (G : gb (fst (mldel_active s m)) = gb s) by (unfold mldel_active; destruct (bshas _ _); auto).
    destruct (mldel_active s m) as [s2 found]. cbn [fst] in G.
    set (s3 := if found then s2 else mldel_wl s2 m) in E1.
    assert (G3 : gb s3 = gb s) by (unfold s3, mldel_wl; destruct found; auto; destruct (bshas _ _); auto). clearbody s3.
    destruct (_ && _); [|injection E1 as <-; now apply grows_eq]. destruct (wlfind _ _); [|discriminate]. injection E1 as <-. now apply grows_eq.
  - exfalso. clear - E. induction l as [|x l IH]; cbn [fold_left] in E; [discriminate|auto].
Qed.
Lemma bind_some (A B : Type) (x : option A) (f : A -> option B) b : bind x f = Some b -> exists a, x = Some a /\ f a = Some b.
Proof. destruct x; cbn; [eauto|discriminate]. Qed.
Lemma combine_grows s u v s' : combine p s u v = Some s' -> grows s s'.
Proof.
  unfold combine. cbv zeta. set (s0 := set_rmoves _ _). assert (G : gb s0 = gb s) by (unfold s0; destruct (wlfind _ _); auto; destruct (wlfind _ _); auto). clearbody s0.
  intros E. apply bind_some in E as (s1 & E1 & E2).
  apply grows_trans with s0; [now apply grows_eq|]. apply grows_trans with s1.
  - eapply for_avail_grows; [|exact E1]. cbv beta. intros a t b E. eapply grows_trans; [apply addedge_grows|apply grows_eq; eapply decdegree_gb; eauto].
  - destruct (_ && _); injection E2 as <-; now apply grows_eq.
Qed.
Lemma step_grows should never s s' : step p should never s = Some s' -> grows s s'.
Proof.
  assert (P : simp p s = Some s' -> grows s s').
  { unfold simp. cbv zeta. intros E. apply for_avail_grows in E; auto. intros a t b Eb. apply grows_eq. eapply decdegree_gb; eauto. }
  assert (C : coalesce p s = Some s' -> grows s s').
  { unfold coalesce. cbv zeta. set (m := last _ _). set (s1 := set_moves s _ _ _ _). assert (G : grows s s1) by now apply grows_eq. clearbody s1.
    destruct (if prepainted _ then _ else _) as [u v].
    assert (B : bind (wladd p s1 u) (fun s => wladd p s v) = Some s' -> grows s s').
    { intros E. apply bind_some in E as (s2 & E1 & E2). eapply grows_trans; [exact G|]. eapply grows_trans; eapply wladd_grows; eauto. }
    destruct (u =? v); auto. destruct (constrained s1 u v); auto. destruct (combinable p s1 u v).
    - intros E. apply bind_some in E as (s2 & E1 & E2). eapply grows_trans; [exact G|]. eapply grows_trans; [eapply combine_grows; eauto|eapply wladd_grows; eauto].
    - intros E. injection E as <-. intros a b H. apply G in H. exact H. }
  assert (Z : freeze p s = Some s' -> grows s s').
  { unfold freeze, freezemoves. cbv zeta. intros E. apply freezes_grows in E. exact E. }
  assert (L : selspill p should never s = Some s' -> grows s s').
  { unfold selspill, freezemoves. cbv zeta. intros E. apply bind_some in E as (m & _ & E). apply freezes_grows in E. exact E. }
  unfold step. destruct (wlsimp s); auto. destruct (wlmove s); auto. destruct (wlfreeze s); auto.
Qed.
Lemma loop_grows should never : forall fuel s s', loop p fuel should never s = Done s' -> grows s s'.
Proof.
  induction fuel as [|f IH]; intros s s'; cbn [loop]; destruct (finished s); try discriminate; try (intros E; injection E as <-; now apply grows_eq).
  destruct (step p should never s) as [s1|] eqn:E1; [|discriminate]. intros E. eapply grows_trans; [eapply step_grows; eauto|eauto].
Qed.

Lemma classes_apart a b : general a = true -> general b = true -> classof (hwmode a) <> classof (hwmode b) -> hw a <> hw b.
Proof.
  intros Ga Gb N E. apply N.
  assert (T : forall r, general r = true -> rclass_eqb (classof (hwmode r)) (match hw r with Gpr _ => Classint | _ => Classflt end) = true).
  { intros r G. assert (L : r < 101) by (apply general_lt in G; lia).
    pose proof (alltrue_spec (fun r => negb (general r) || rclass_eqb (classof (hwmode r)) (match hw r with Gpr _ => Classint | _ => Classflt end)) 101 ltac:(vm_compute; reflexivity) r L) as Q.
    cbv beta in Q. rewrite G in Q. exact Q. }
  pose proof (T a Ga) as Ta. pose proof (T b Gb) as Tb. apply rclass_eqb_eq in Ta, Tb. rewrite Ta, Tb, E. reflexivity.
Qed.

(* ---------- the assignment ---------- *)

Lemma hw_frame_virt x : node p x -> fixedreg x = true -> x < nphys.
Proof. intros _ H. unfold fixedreg, Rrbp, Rrsp, Rrip in H. apply orb_true_iff in H as [H|H]; [apply orb_true_iff in H as [H|H]|]; apply Nat.eqb_eq in H; subst; unfold nphys; lia. Qed.

Lemma nofixed r : nphys <= r -> fixedreg r = false.
Proof.
  intros Hr. destruct (fixedreg r) eqn:Hf; auto. unfold fixedreg, Rrbp, Rrsp, Rrip in Hf.
  apply orb_true_iff in Hf as [Hf|Hf]; [apply orb_true_iff in Hf as [Hf|Hf]|]; apply Nat.eqb_eq in Hf; subst; unfold nphys in Hr; lia.
Qed.
(* what the sets computed by liveness give the graph *)
Lemma exact_outs fuel ins outs : wf_prog p -> liveness fuel p = Some (ins, outs) ->
  (forall b bb r, blk p b = Some bb -> bshas (nth b outs 0%N) r = true -> Live p r (b, length (il bb))) /\
  (forward_need p -> clean_copies p -> Exact p outs).
Proof.
  intros W El. split.
  - intros b bb r Hb H. assert (Z : length (repeat 0%N (length (blocks p))) = length (blocks p)) by apply repeat_length.
    destruct (iter_sound p W _ _ _ _ _ Z Z (sound_init p) El) as (_ & _ & C). now apply (C b bb Hb).
  - intros FN CC. split; auto. intros b bb r Hb H. now apply (liveness_exact p W fuel ins outs FN El b bb Hb).
Qed.

Theorem assigned fuel should never col : wf_prog p -> allocate fuel should never p = Some (col, 0%N) ->
  (forall r, r < nphys -> nth r col 0 = r) /\
  (forall r, node p r -> fixedreg r = false -> general (nth r col 0) = true /\ hwmode (nth r col 0) = vmode p r) /\
  exists ins outs s init, liveness fuel p = Some (ins, outs) /\ build p outs (setup p) 0%N = (s, init) /\
   (forall x y, edge s x y -> hw (nth x col 0) <> hw (nth y col 0)) /\
   (forward_need p -> clean_copies p -> forall b k, b < length (blocks p) -> Joined p s b k).
Proof.
  intros W E. unfold allocate, allocstate in E. destruct (liveness fuel p) as [[ins outs]|] eqn:El; [|discriminate].
  destruct (build p outs (setup p) 0%N) as [s init] eqn:Eb. destruct (loop p fuel should never (mkworklist p s init)) as [s'| |] eqn:Ew; try discriminate. injection E as P.
  destruct (exact_outs fuel ins outs W El) as [LV EX].
  destruct (build_full p W outs LV s init Eb) as [F [G0 J]].
  destruct (loop_full p W fuel should never _ _ F Ew) as [F' Fin]. pose proof (loop_grows _ _ _ _ _ Ew) as G.
  pose proof (wf_phys p W) as NP. split; [|split].
  - intros r Hr. apply (colour_prep p s' F' Fin col P r); [lia|now apply prep_phys].
  - intros r. apply (colour_ok p W s' F' Fin col P r).
  - exists ins, outs, s, init. split; auto. split; auto. split.
    + intros x y H. apply (edge_colours p W s' F' Fin col P). apply G. unfold edge, gbhasedge. now rewrite G0.
    + intros FN CC b k Hb. apply (joined_mono p (mkworklist p s init)); [intros x y; unfold edge, gbhasedge; now rewrite G0|]. apply J; auto.
Qed.

Theorem assignment fuel should never col : wf_prog p -> forward_need p -> clean_copies p -> allocate fuel should never p = Some (col, 0%N) ->
  forall d r, Conflict p d r -> nphys <= d \/ nphys <= r -> hw (nth d col 0) <> hw (nth r col 0).
Proof.
  intros W FN CC E. destruct (assigned fuel should never col W E) as (CP & CO & ins & outs & s & init & El & Eb & EC & J). specialize (J FN CC).
  intros d r (b & k & i & A & Wd & Nr & Ne & Nc) V.
  assert (Lb : b < length (blocks p)) by (destruct A as (bb & Hb & _); eapply blk_lt; eauto).
  destruct (J b k Lb i d r A Wd Nr Nc) as (r' & Nd' & Cv & Ed).
  pose proof (at_prog p _ _ A) as Hi. pose proof (wf_nofix p i W Hi) as NFi.
  assert (Nd : node p d) by (apply (use_node p W i d Hi); right; now apply defs_writes).
  assert (Nr0 : node p r) by (apply (live_node p W r (b, S k)); now apply needed_live).
  (* r' has the storage of r *)
  assert (S : hw (nth r' col 0) = hw (nth r col 0)).
  { destruct Cv as [->|(G1 & G2 & H & _)]; auto. rewrite !CP by now apply general_namable. auto. }
  rewrite <- S.
  assert (Nd'' : d <> r').
  { intros <-. destruct Cv as [->|(G1 & G2 & _)]; [tauto|]. apply general_namable in G1, G2. lia. }
  assert (V' : nphys <= d \/ nphys <= r').
  { destruct V as [V|V]; auto. destruct Cv as [->|(G1 & _)]; auto. apply general_namable in G1. lia. }
  destruct (fixedreg d) eqn:Fd.
  { assert (Vr : nphys <= r') by (pose proof (hw_frame_virt d Nd Fd); lia). rewrite (CP d) by now apply hw_frame_virt.
    intros Eh. apply (general_hw_frame (nth r' col 0) d); auto; [apply CO; auto; now apply nofixed|now rewrite framereg_fixed]. }
  destruct (fixedreg r') eqn:Fr.
  { rewrite (CP r') by now apply hw_frame_virt. apply general_hw_frame; [now apply CO|now rewrite framereg_fixed]. }
  destruct (CO d Nd Fd) as [Gd Md]. destruct (CO r' Nd' Fr) as [Gr' Mr].
  destruct (rclass_eqb (rcls p d) (rcls p r')) eqn:Ec.
  - apply rclass_eqb_eq in Ec. apply EC, Ed. split; auto. split; auto. split; auto. split; auto.
    destruct V' as [V'|V']; apply prep_virt in V'; rewrite V'; auto. apply andb_false_r.
  - apply classes_apart; auto. rewrite Md, Mr. intros Eq. unfold rcls in Ec. rewrite Eq in Ec. assert (rclass_eqb (classof (vmode p r')) (classof (vmode p r')) = true) by now apply rclass_eqb_eq. congruence.
Qed.

End Final.
