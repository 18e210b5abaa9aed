(* Properties C64 and C65: programs behave the same after register allocation. *)
From Verif Require Import Base Ra_Spec Ra_Model Ra_Live Ra_Tables Ra_Wl Ra_Core Ra_Build Ra_Final Ra_Props Ra_SemSpec Ra_Emit Ra_Sem.
Import Ra_Spec Ra_Model.
Open Scope nat_scope.

(* C64.  Whatever the instructions compute, and wherever control goes: the allocated function reaches the same points with the
   same memory as the function over virtual registers, and holds in machine registers every value still needed.
   The conditions of C26; copies keep or narrow sizes; machine registers are not copied in part; zero extensions are
   between different machine registers (C65). *)
Theorem C64_behaviour_partial p fuel should never col (M : Type) act goto zext :
  wf_prog p -> forward_need p -> clean_copies p -> narrow_copies p -> whole_copies p -> implicit_machine p -> zext_form zext p ->
  allocate fuel should never p = Some (col, 0%N) ->
  (forall i a b, in_prog p i -> zext (uid i) = true -> args i = [Lreg a; Lreg b] -> hw (nth a col 0) <> hw (nth b col 0)) ->
  forall n b0 st st' m,
  (forall r, nphys <= r -> ~ Needed p r (b0, 0)) -> (forall h, cell st h = cell st' h) ->
  match steps M goto (exec M act zext p) p n ((b0, 0), st, m), steps M goto (exec_emitted M act zext p col) p n ((b0, 0), st', m) with
  | Some (pt1, st1, m1), Some (pt2, st2, m2) => pt1 = pt2 /\ m1 = m2 /\ forall r, Needed p r pt1 -> rd st1 r = rd st2 (nth r col 0)
  | None, None => True
  | _, _ => False
  end.
Proof.
  intros W F C N Wc I Z A D n b0 st st' m E0 Ec. destruct (C26_colouring p fuel should never col W A) as (Cp & Co & _).
  apply (steps_rel M act goto zext p W col); auto.
  - intros d r Cf H. exact (C26_disjoint_partial p fuel should never col W F C A d r Cf H).
  - intros bb _. cbn. lia.
  - intros r Nr. destruct (Nat.lt_ge_cases r nphys) as [L|L]; [|destruct (E0 r L Nr)]. rewrite (Cp r L). unfold rd. apply Nat.ltb_lt in L. now rewrite L, Ec.
Qed.

(* whole_copies is decided by the liveness sets *)
Definition wholeb (p : prog) (outs : list bset) : bool :=
  forallb (fun b => match blk p b with
    | None => true
    | Some bb => forallb (fun k => match nth_error (il bb) k with
        | Some i => match iop i, args i with
            | Omov, [Lreg src; Lreg dst] => negb (dst <? nphys) || forallb (fun r => negb (bshas (flows (skipn (S k) (il bb)) (nth b outs 0%N)) r) ||
                 negb (hw_eqb (hw r) (hw dst)) || Z.leb (bits (hwmode r)) (bits (hwmode dst))) (seq 0 nphys)
            | _, _ => true end
        | None => true end) (seq 0 (length (il bb))) end) (seq 0 (length (blocks p))).
Lemma whole_of p fuel ins outs : wf_prog p -> forward_need p -> liveness fuel p = Some (ins, outs) -> wholeb p outs = true -> whole_copies p.
Proof.
  intros W F L H b k i src d r A [O Ag] Ls Lr Nr E. destruct A as (bb & Hb & Hk). cbn [fst snd] in Hb, Hk.
  unfold wholeb in H. rewrite forallb_forall in H. specialize (H b ltac:(apply in_seq; pose proof (blk_lt p b bb Hb); lia)). rewrite Hb in H.
  assert (Lk : k < length (il bb)) by (apply nth_error_Some; congruence).
  rewrite forallb_forall in H. specialize (H k ltac:(apply in_seq; lia)). rewrite Hk, O, Ag in H.
  apply orb_true_iff in H as [H|H]; [apply negb_true_iff, Nat.ltb_ge in H; lia|]. rewrite forallb_forall in H. specialize (H r ltac:(apply in_seq; lia)).
  apply needed_live in Nr. destruct (liveness_exact p W fuel ins outs F L b bb Hb) as (_ & _ & Q). apply (Q (S k) r) in Nr; [|lia]. rewrite Nr in H. cbn [negb orb] in H.
  apply orb_true_iff in H as [H|H]; [apply negb_true_iff in H; apply (proj2 (hw_eqb_eq _ _)) in E; congruence|now apply Z.leb_le].
Qed.
(* and so is what is needed at the start *)
Lemma unneeded_of p fuel ins outs b bb : wf_prog p -> forward_need p -> liveness fuel p = Some (ins, outs) -> blk p b = Some bb ->
  forallb (fun r => negb (bshas (nth b ins 0%N) r)) (seq nphys (nregs p - nphys)) = true -> forall r, nphys <= r -> ~ Needed p r (b, 0).
Proof.
  intros W F L Hb H r Lr Nr. apply needed_live in Nr. destruct (liveness_exact p W fuel ins outs F L b bb Hb) as (Q & _ & _).
  assert (B : r < nregs p).
  { clear - W Nr. remember (b, 0) as pt eqn:Ept. clear Ept. induction Nr as [q i A R|? ? i A R Nr IH|? ? ? Hb Hs Hn Nr IH]; auto. destruct q as [q1 q2]. eapply (wf_regs p W); [eapply at_prog; eauto|]. now apply reads_mentions. }
  apply Q in Nr. rewrite forallb_forall in H. specialize (H r ltac:(apply in_seq; lia)). now rewrite Nr in H.
Qed.

(* examples: the function of C26, run *)
Example pcopy_copies : narrow_copies pcopy /\ whole_copies pcopy /\ implicit_machine pcopy.
Proof.
  split; [|split].
  - intros i src dst (b & bb & Hb & Hi) [O Ag]. unfold blk in Hb. cbn [blocks pcopy] in Hb.
    destruct b as [|[|[|]]]; cbn [nth] in Hb; try discriminate Hb; injection Hb as <-; cbn [il In] in Hi; repeat destruct Hi as [<-|Hi]; try destruct Hi; try discriminate O; injection Ag as <- <-; left; reflexivity.
  - destruct (liveness 400 pcopy) as [[ins outs]|] eqn:E; [|vm_compute in E; discriminate].
    apply (whole_of pcopy 400 ins outs pcopy_wf pcopy_need E). vm_compute in E. injection E as <- <-. vm_compute. reflexivity.
  - intros i r (b & bb & Hb & Hi) H. unfold blk in Hb. cbn [blocks pcopy] in Hb.
    destruct b as [|[|[|]]]; cbn [nth] in Hb; try discriminate Hb; injection Hb as <-; cbn [il In] in Hi; repeat destruct Hi as [<-|Hi]; try destruct Hi; cbn in H; tauto.
Qed.
Example pcopy_start : forall r, nphys <= r -> ~ Needed pcopy r (0, 0).
Proof.
  destruct (liveness 400 pcopy) as [[ins outs]|] eqn:E; [|vm_compute in E; discriminate].
  eapply (unneeded_of pcopy 400 ins outs 0 _ pcopy_wf pcopy_need E); [reflexivity|]. vm_compute in E. injection E as <- <-. vm_compute. reflexivity.
Qed.
(* instructions 1 and 3 make 7 and 2^40+1; 4 and 6 add what they read to a list *)
Definition logact (u : nat) (vs : list Z) (m : list Z) : list Z * list Z :=
  match u with 1 => ([7%Z], m) | 3 => ([2 ^ 40 + 1]%Z, m) | _ => ([], vs ++ m) end.
Definition zeros : regs := mkRegs (fun _ => 0%Z) (fun _ => 0%Z).
Example pcopy_runs : exists col st pt, allocate 400 (fun _ => false) (fun _ => false) pcopy = Some (col, 0%N) /\
  steps _ (fun _ _ => 1) (exec_emitted _ logact (fun _ => false) pcopy col) pcopy 7 ((0, 0), zeros, []) = Some (pt, st, [2 ^ 40 + 1; 7])%Z.
Proof. do 3 eexists. split; [vm_compute; reflexivity|]. cbv -[Z.pow]. reflexivity. Qed.
Example pcopy_behaves : forall col M act goto n st m, allocate 400 (fun _ => false) (fun _ => false) pcopy = Some (col, 0%N) ->
  option_map snd (steps M goto (exec M act (fun _ => false) pcopy) pcopy n ((0, 0), st, m)) =
  option_map snd (steps M goto (exec_emitted M act (fun _ => false) pcopy col) pcopy n ((0, 0), st, m)).
Proof.
  intros col M act goto n st m A. destruct pcopy_copies as (N & Wc & I).
  pose proof (C64_behaviour_partial pcopy 400 _ _ col M act goto (fun _ => false) pcopy_wf pcopy_need pcopy_clean N Wc I ltac:(intros i _ X; discriminate X) A ltac:(intros i a b _ X; discriminate X) n 0 st st m pcopy_start (fun _ => eq_refl)) as H.
  destruct (steps M goto (exec M act (fun _ => false) pcopy) pcopy n _) as [[[p1 s1] m1]|], (steps M goto (exec_emitted M act (fun _ => false) pcopy col) pcopy n _) as [[[p2 s2] m2]|]; cbn; try contradiction; auto.
  destruct H as (_ & -> & _). reflexivity.
Qed.

(* C65.  x is made, its low half taken, and the half widened to 64 bits: (x castto(uint32)) castto(uint64). *)
Definition modes65 (r : nat) : mode := if r <? nphys then hwmode r else if r =? 103 then ModeL else ModeQ.
Definition zexti u a b := mkInsn u (Oinsn [1] [] [2] []) [Lreg a; Lreg b].
Definition halves : prog := mkProg
  [Some (mkBlock [defi 1 102; movi 2 102 103; zexti 3 103 104] [1]); Some (mkBlock [usei 4 104] [])] 105 modes65.
Definition act65 (u : nat) (vs : list Z) (m : list Z) : list Z * list Z :=
  match u with 1 => ([2 ^ 40 + 5]%Z, m) | _ => ([], vs ++ m) end.
(* Every condition of C64 but the last holds, and the widened value is the whole of x. *)
Theorem C65_zext_dropped_refuted : exists p fuel col zext act n m1 m2,
  wf_prog p /\ forward_need p /\ clean_copies p /\ narrow_copies p /\ whole_copies p /\ implicit_machine p /\ zext_form zext p /\
  (forall r, nphys <= r -> ~ Needed p r (0, 0)) /\
  allocate fuel (fun _ => false) (fun _ => false) p = Some (col, 0%N) /\
  option_map snd (steps (list Z) (fun _ _ => 1) (exec _ act zext p) p n ((0, 0), zeros, [])) = Some m1 /\
  option_map snd (steps (list Z) (fun _ _ => 1) (exec_emitted _ act zext p col) p n ((0, 0), zeros, [])) = Some m2 /\
  m1 = [5%Z] /\ m2 = [2 ^ 40 + 5]%Z.
Proof.
  assert (Wf : wf_prog halves).
  { apply wf_of_modes; [| |reflexivity|reflexivity|apply nodup_dec_true; reflexivity]; intros r Hr; unfold modes65; [apply Nat.ltb_lt in Hr|apply Nat.ltb_ge in Hr]; rewrite Hr; [auto|destruct (r =? 103); discriminate]. }
  assert (Fn : forward_need halves).
  { exists 0. eexists. exists 1, 104. split; [reflexivity|]. split; [now left|]. split; [lia|].
    exists 0, (usei 4 104). split; [eexists; split; reflexivity|]. split; [|intros; lia]. left. exists 1. split; [now left|reflexivity]. }
  destruct (liveness 400 halves) as [[ins outs]|] eqn:E; [|vm_compute in E; discriminate].
  destruct (allocate 400 (fun _ => false) (fun _ => false) halves) as [[col sp]|] eqn:A; [|vm_compute in A; discriminate].
  exists halves, 400, col, (fun u => u =? 3), act65, 5, [5%Z], [2 ^ 40 + 5]%Z.
  split; auto. split; auto. split. { apply (clean_of halves 400 ins outs Wf Fn E). vm_compute in E. injection E as <- <-. vm_compute. reflexivity. }
  split. { intros i src dst (b & bb & Hb & Hi) [O Ag]. unfold blk in Hb. cbn [blocks halves] in Hb.
    destruct b as [|[|[|]]]; cbn [nth] in Hb; try discriminate Hb; injection Hb as <-; cbn [il In] in Hi; repeat destruct Hi as [<-|Hi]; try destruct Hi; try discriminate O; injection Ag as <- <-.
    right. split; [vm_compute; reflexivity|]. split; [vm_compute; reflexivity|]. split; [vm_compute; reflexivity|]. split; [vm_compute; reflexivity|]. apply Z.leb_le. vm_compute. reflexivity. }
  split. { apply (whole_of halves 400 ins outs Wf Fn E). vm_compute in E. injection E as <- <-. vm_compute. reflexivity. }
  split. { intros i r (b & bb & Hb & Hi) H. unfold blk in Hb. cbn [blocks halves] in Hb.
    destruct b as [|[|[|]]]; cbn [nth] in Hb; try discriminate Hb; injection Hb as <-; cbn [il In] in Hi; repeat destruct Hi as [<-|Hi]; try destruct Hi; cbn in H; tauto. }
  split. { intros i (b & bb & Hb & Hi) H. unfold blk in Hb. cbn [blocks halves] in Hb.
    destruct b as [|[|[|]]]; cbn [nth] in Hb; try discriminate Hb; injection Hb as <-; cbn [il In] in Hi; repeat destruct Hi as [<-|Hi]; try destruct Hi; try discriminate H. exists 103, 104. split; [reflexivity|]. split; [reflexivity|]. split; [vm_compute; reflexivity|]. split; [vm_compute; reflexivity|]. split; vm_compute; reflexivity. }
  split. { eapply (unneeded_of halves 400 ins outs 0 _ Wf Fn E); [reflexivity|]. vm_compute in E. injection E as <- <-. vm_compute. reflexivity. }
  vm_compute in A. injection A as <- <-. split; [reflexivity|]. split; [vm_compute; reflexivity|]. split; [vm_compute; reflexivity|]. split; reflexivity.
Qed.
(* When the two are kept in different machine registers the conversion is exact. *)
Theorem C65_zext_kept p col M act zext st m i a b : in_prog p i -> zext (uid i) = true -> zext_form zext p -> args i = [Lreg a; Lreg b] ->
  (forall r, r = a \/ r = b -> general (nth r col 0) = true /\ hwmode (nth r col 0) = vmode p r) -> hw (nth a col 0) <> hw (nth b col 0) ->
  exists st1, exec_emitted M act zext p col st m i = (st1, m) /\
    rd st1 (nth b col 0) = rd st (nth a col 0) /\ (0 <= rd st (nth a col 0%nat) < 2 ^ 32)%Z /\
    forall r, r < nphys -> hw r <> hw (nth b col 0) -> rd st1 r = rd st r.
Proof.
  intros Hi Z ZF Ag Co D. destruct (ZF i Hi Z) as (a' & b' & O & Ag' & Va & Vb & _). assert (a' = a /\ b' = b) as [-> ->] by (rewrite Ag in Ag'; injection Ag' as <- <-; auto). clear Ag'.
  destruct (Co a (or_introl eq_refl)) as [Ga Ma]. destruct (Co b (or_intror eq_refl)) as [Gb Mb]. rewrite Va in Ma. rewrite Vb in Mb.
  destruct (coreg_ok (nth b col 0) ModeL Gb ltac:(now rewrite Mb) eq_refl) as (G' & H' & M'). set (d' := coreg (nth b col 0) ModeL) in *.
  assert (L' : d' < nphys) by (apply general_lt in G'; unfold nphys; lia).
  assert (Lb : nth b col 0 < nphys) by (apply general_lt in Gb; unfold nphys; lia).
  assert (La : nth a col 0 < nphys) by (apply general_lt in Ga; unfold nphys; lia).
  assert (EMI : exec_emitted M act zext p col st m i = (wr p st d' (rd st (nth a col 0)), m)).
  { unfold exec_emitted, emit, paintinsn. cbn [iop args uid]. rewrite O, Ag. cbn [map paintloc]. rewrite Z. unfold dumbmov.
    assert (Zd : nth b col 0 <> 0) by (intros E; rewrite E in Gb; discriminate Gb). rewrite (proj2 (Nat.eqb_neq _ _) Zd). fold d'.
    assert (N : nth a col 0 <> d') by congruence. rewrite (proj2 (Nat.eqb_neq _ _) N), andb_false_r. reflexivity. }
  rewrite EMI. eexists. split; [reflexivity|]. set (v := rd st (nth a col 0)) in *.
  assert (Bv : (0 <= v < 2 ^ 32)%Z). { unfold v, rd. apply Nat.ltb_lt in La. rewrite La, Ma. apply Z.mod_pos_bound. reflexivity. }
  split; [|split; auto].
  - unfold rd, wr. apply Nat.ltb_lt in L', Lb. rewrite L', Lb. cbn [cell]. destruct (hw_dec (hw (nth b col 0)) (hw d')) as [_|X]; [|congruence]. rewrite M', Mb. cbn [put bits].
    rewrite (Z.mod_small v) by auto. apply Z.mod_small. split; [apply Bv|]. eapply Z.lt_trans; [apply Bv|reflexivity].
  - intros r Lr Hr. unfold rd, wr. apply Nat.ltb_lt in L', Lr. rewrite L', Lr. cbn [cell]. destruct (hw_dec (hw r) (hw d')) as [X|_]; [congruence|reflexivity].
Qed.

Print Assumptions C64_behaviour_partial.
Print Assumptions C65_zext_dropped_refuted.
Print Assumptions C65_zext_kept.
