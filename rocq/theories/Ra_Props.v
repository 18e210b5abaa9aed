(* Properties C25 and C26: register liveness and register allocation. *)
From Verif Require Import Base Ra_Spec Ra_Model Ra_Live Ra_Tables Ra_Wl Ra_Core Ra_Build Ra_Final.
Import Ra_Spec Ra_Model.
Open Scope nat_scope.

(* small programs *)
Definition defi u r := mkInsn u (Oinsn [] [] [1] []) [Lreg r].
Definition usei u r := mkInsn u (Oinsn [1] [] [] []) [Lreg r].
Definition movi u a b := mkInsn u Omov [Lreg a; Lreg b].
Definition allq (r : nat) : mode := if r <? nphys then hwmode r else ModeQ.

(* C25.  In a function where control somewhere goes forward into a block that reads a register before writing it,
   the computed sets are exactly the live registers: at both ends of every block and before every instruction. *)
Theorem C25_exact_partial p fuel ins outs : wf_prog p -> forward_need p -> liveness fuel p = Some (ins, outs) ->
  forall b bb, blk p b = Some bb ->
   (forall r, bshas (nth b ins 0%N) r = true <-> Live p r (b, 0)) /\
   (forall r, bshas (nth b outs 0%N) r = true <-> Live p r (b, length (il bb))) /\
   (forall k r, k <= length (il bb) -> bshas (flows (skipn k (il bb)) (nth b outs 0%N)) r = true <-> Live p r (b, k)).
Proof. intros W. exact (liveness_exact p W fuel ins outs). Qed.
(* the computation ends *)
Theorem C25_ends p fuel : wf_prog p -> length (blocks p) * nregs p < fuel -> exists r, liveness fuel p = Some r.
Proof. intros W. exact (liveness_ends p W fuel). Qed.

(* Without that condition live registers are missed.  Block 0 sets x and goes to 2; 2 sets y and goes to 1; 1 reads both.
   x is live when block 0 ends, but is not in the computed set, and both get %rax. *)
Definition jumpback : prog := mkProg
  [Some (mkBlock [defi 1 102] [2]); Some (mkBlock [usei 2 102; usei 3 103] []); Some (mkBlock [defi 4 103] [1])] 104 allq.
Theorem C25_missed_refuted : exists p fuel ins outs b bb r,
  liveness fuel p = Some (ins, outs) /\ blk p b = Some bb /\ Live p r (b, length (il bb)) /\ bshas (nth b outs 0%N) r = false.
Proof.
  exists jumpback, 10. destruct (liveness 10 jumpback) as [[ins outs]|] eqn:E; [|vm_compute in E; discriminate].
  exists ins, outs, 0, (mkBlock [defi 1 102] [2]), 102. split; auto. split; [reflexivity|]. split.
  - apply (live_edge jumpback 102 0 (mkBlock [defi 1 102] [2]) 2); [reflexivity|now left|discriminate|].
    eapply Ra_Spec.live_pass; [eexists; split; reflexivity| |].
    + intros [(k & [<-|[]] & H)|[]]. discriminate H.
    + apply (live_edge jumpback 102 2 (mkBlock [defi 4 103] [1]) 1); [reflexivity|now left|discriminate|].
      eapply live_read; [eexists; split; reflexivity|]. left. exists 1. split; [now left|reflexivity].
  - vm_compute in E. injection E as _ <-. reflexivity.
Qed.
(* and the two registers, both needed when block 1 starts, end up in the same machine register *)
Theorem C25_same_register_refuted : exists p fuel col b x y,
  allocate fuel (fun _ => false) (fun _ => false) p = Some (col, 0%N) /\
  Live p x (b, 0) /\ Live p y (b, 0) /\ x <> y /\ nth x col 0 = nth y col 0 /\ nth x col 0 <> 0.
Proof.
  exists jumpback, 100. destruct (allocate 100 (fun _ => false) (fun _ => false) jumpback) as [[col sp]|] eqn:E; [|vm_compute in E; discriminate].
  vm_compute in E. injection E as <- <-. eexists. exists 1, 102, 103. split; [reflexivity|]. split; [|split].
  - eapply live_read; [eexists; split; reflexivity|]. left. exists 1. split; [now left|reflexivity].
  - eapply Ra_Spec.live_pass; [eexists; split; reflexivity| |].
    + intros [(k & [] & H)|[]].
    + eapply live_read; [eexists; split; reflexivity|]. left. exists 1. split; [now left|reflexivity].
  - split; [discriminate|]. split; [reflexivity|discriminate].
Qed.

(* a loop: x is set, block 1 reads x and y and sets y, and goes back to itself *)
Definition aloop : prog := mkProg
  [Some (mkBlock [defi 1 102; defi 2 103] [1]); Some (mkBlock [usei 3 102; movi 4 103 104; usei 5 104; defi 6 103] [1; 2]); Some (mkBlock [usei 7 102] [])] 105 allq.

(* programs in range, with distinct numbers, checked by computation *)
Lemma wf_of_modes (md : nat -> mode) (bs : list (option block)) n : (forall r, r < nphys -> md r = hwmode r) -> (forall r, nphys <= r -> classof (md r) <> Classbad) -> (nphys <=? n) = true ->
  forallb (fun ob => match ob with
    | None => true
    | Some b => forallb (fun i => forallb (fun a => match a with
          | Lreg r => (r <? n) && ((nphys <=? r) || namable r)
          | Lmem r => (r <? n) && ((nphys <=? r) || namable r)
          | Lmemi r x => (r <? n) && ((nphys <=? r) || namable r) && (x <? n) && ((nphys <=? x) || namable x)
          | Lnone => true end) (args i) &&
        forallb (fun r => (r <? n) && ((nphys <=? r) || namable r)) (op_ur (iop i) ++ op_dr (iop i)) &&
        match iop i, args i with
        | Omov, [Lreg s; Lreg d] => (negb (framereg s) || (d <? nphys)) && (negb (framereg d) || (s <? nphys))
        | Omov, [_; _] => true
        | Omov, _ => false
        | _, _ => true end) (il b) &&
      forallb (fun s => match nth s bs None with Some _ => true | None => false end) (succs b)
    end) bs = true ->
  NoDup (map uid (flat_map (fun ob => match ob with Some b => il b | None => [] end) bs)) ->
  wf_prog (mkProg bs n md).
Proof.
  intros Md1 Md2 H1 H2 H3. rewrite forallb_forall in H2.
  assert (G : forall b bb, blk (mkProg bs n md) b = Some bb -> In (Some bb) bs).
  { intros b bb H. unfold blk in H. cbn [blocks] in H. destruct (nth_in_or_default b bs None) as [Hi|E]; [rewrite H in Hi|rewrite H in E; discriminate]. auto. }
  assert (Q : forall r, (r <? n) && ((nphys <=? r) || namable r) = true -> r < n /\ (r < nphys -> namable r = true)).
  { intros r H. apply andb_true_iff in H as [A B]. apply Nat.ltb_lt in A. split; auto. intros L. apply orb_true_iff in B as [B|B]; auto. apply Nat.leb_le in B. lia. }
  split; cbn [nregs vmode].
  - now apply Nat.leb_le.
  - intros i r (b & bb & Hb & Hi) M. apply G in Hb. apply H2 in Hb. apply andb_true_iff in Hb as [Hb _].
    rewrite forallb_forall in Hb. apply Hb in Hi. apply andb_true_iff in Hi as [Hi _]. apply andb_true_iff in Hi as [A B].
    rewrite forallb_forall in A, B. destruct M as [(a & Ha & M)|M].
    + apply A in Ha. destruct a as [x|x|x y|]; [subst; now apply Q|subst; now apply Q| |destruct M].
      apply andb_true_iff in Ha as [Ha Ha4]. apply andb_true_iff in Ha as [Ha Ha3]. destruct M as [->| ->]; apply Q; auto. now rewrite Ha3, Ha4.
    + apply Q, B. rewrite in_app_iff. tauto.
  - exact Md1.
  - intros r. destruct (Nat.lt_ge_cases r nphys) as [Hr|Hr]; [|now apply Md2]. rewrite Md1 by auto. unfold hwmode. repeat destruct (_ <=? _); discriminate.
  - intros i (b & bb & Hb & Hi) E. apply G in Hb. apply H2 in Hb. apply andb_true_iff in Hb as [Hb _].
    rewrite forallb_forall in Hb. apply Hb in Hi. apply andb_true_iff in Hi as [_ Hi]. rewrite E in Hi.
    destruct (args i) as [|a [|c [|? ?]]]; try discriminate; eauto; destruct a; try discriminate; destruct c; discriminate.
  - intros i s d (b & bb & Hb & Hi) [E1 E2]. apply G in Hb. apply H2 in Hb. apply andb_true_iff in Hb as [Hb _].
    rewrite forallb_forall in Hb. apply Hb in Hi. apply andb_true_iff in Hi as [_ Hi]. rewrite E1, E2 in Hi.
    apply andb_true_iff in Hi as [A B]. split; intros F; [rewrite F in A; now apply Nat.ltb_lt|rewrite F in B; now apply Nat.ltb_lt].
  - intros b b' bb bb' k k' i i' Hb Hb' Hk Hk' Eu. unfold blk in Hb, Hb'. cbn [blocks] in Hb, Hb'. clear G H2 H1 Q. revert b b' Hb Hb' H3.
    induction bs as [|ob l IH]; intros b b' Hb Hb' H3; [destruct b; discriminate|]. cbn [flat_map] in H3. rewrite map_app in H3.
    assert (N1 : forall x, In x (map uid match ob with Some b => il b | None => [] end) -> In x (map uid (flat_map (fun ob => match ob with Some b => il b | None => [] end) l)) -> False).
    { intros x X1 X2. clear - H3 X1 X2. set (l1 := map uid _) in *. induction l1 as [|y l1 IH]; [destruct X1|]. cbn in H3. apply NoDup_cons_iff in H3 as [A B].
      destruct X1 as [->|X1]; [apply A; apply in_or_app; auto|auto]. }
    assert (N2 : NoDup (map uid match ob with Some b => il b | None => [] end) /\ NoDup (map uid (flat_map (fun ob => match ob with Some b => il b | None => [] end) l))).
    { clear - H3. set (l1 := map uid match ob with Some _ => _ | None => _ end) in *. induction l1 as [|y l1 IH]; [split; [constructor|auto]|].
      cbn in H3. apply NoDup_cons_iff in H3 as [A B]. destruct (IH B) as [C D]. split; auto. constructor; auto. intros X. apply A. apply in_or_app; auto. }
    destruct N2 as [N2 N3].
    assert (R : forall b bb k i, nth b l None = Some bb -> nth_error (il bb) k = Some i -> In (uid i) (map uid (flat_map (fun ob => match ob with Some b => il b | None => [] end) l))).
    { intros c cc j y Hc Hj. apply in_map. apply in_flat_map. exists (Some cc). split; [|eapply nth_error_In; eauto].
      destruct (nth_in_or_default c l None) as [Hx|Hx]; [rewrite Hc in Hx; auto|rewrite Hc in Hx; discriminate]. }
    destruct b as [|b], b' as [|b']; cbn [nth] in Hb, Hb'.
    + subst ob. injection Hb' as ->. split; auto. pose proof (proj1 (NoDup_nth_error (map uid (il bb'))) N2) as N4.
      apply N4; [rewrite map_length; apply nth_error_Some; congruence|]. rewrite (map_nth_error uid _ _ Hk), (map_nth_error uid _ _ Hk'). now rewrite Eu.
    + exfalso. subst ob. apply (N1 (uid i)); [apply in_map; eapply nth_error_In; eauto|]. rewrite Eu. eapply R; eauto.
    + exfalso. subst ob. apply (N1 (uid i')); [apply in_map; eapply nth_error_In; eauto|]. rewrite <- Eu. eapply R; eauto.
    + destruct (IH b b' Hb Hb' N3) as [-> ->]. auto.
  - intros b bb s Hb Hs. apply G in Hb. apply H2 in Hb. apply andb_true_iff in Hb as [_ Hb]. rewrite forallb_forall in Hb. apply Hb in Hs.
    unfold blk. cbn [blocks]. destruct (nth s bs None); discriminate.
Qed.
Lemma wf_of (bs : list (option block)) n : (nphys <=? n) = true ->
  forallb (fun ob => match ob with
    | None => true
    | Some b => forallb (fun i => forallb (fun a => match a with
          | Lreg r => (r <? n) && ((nphys <=? r) || namable r)
          | Lmem r => (r <? n) && ((nphys <=? r) || namable r)
          | Lmemi r x => (r <? n) && ((nphys <=? r) || namable r) && (x <? n) && ((nphys <=? x) || namable x)
          | Lnone => true end) (args i) &&
        forallb (fun r => (r <? n) && ((nphys <=? r) || namable r)) (op_ur (iop i) ++ op_dr (iop i)) &&
        match iop i, args i with
        | Omov, [Lreg s; Lreg d] => (negb (framereg s) || (d <? nphys)) && (negb (framereg d) || (s <? nphys))
        | Omov, [_; _] => true
        | Omov, _ => false
        | _, _ => true end) (il b) &&
      forallb (fun s => match nth s bs None with Some _ => true | None => false end) (succs b)
    end) bs = true ->
  NoDup (map uid (flat_map (fun ob => match ob with Some b => il b | None => [] end) bs)) ->
  wf_prog (mkProg bs n allq).
Proof. apply wf_of_modes; intros r Hr; unfold allq; [apply Nat.ltb_lt in Hr|apply Nat.ltb_ge in Hr]; rewrite Hr; [auto|discriminate]. Qed.

Lemma nodup_dec_true (l : list nat) : forallb (fun i => forallb (fun j => (i =? j) || negb (nth i l 0 =? nth j l 0)) (seq 0 (length l))) (seq 0 (length l)) = true -> NoDup l.
Proof.
  intros H. apply (NoDup_nth l 0). intros i j Hi Hj E. rewrite forallb_forall in H. specialize (H i ltac:(apply in_seq; lia)). rewrite forallb_forall in H.
  specialize (H j ltac:(apply in_seq; lia)). apply orb_true_iff in H as [H|H]; [now apply Nat.eqb_eq|]. rewrite E, Nat.eqb_refl in H. discriminate.
Qed.

Example aloop_wf : wf_prog aloop.
Proof. apply wf_of; [reflexivity|reflexivity|]. apply nodup_dec_true. reflexivity. Qed.
Example jumpback_wf : wf_prog jumpback.
Proof. apply wf_of; [reflexivity|reflexivity|]. apply nodup_dec_true. reflexivity. Qed.
Example aloop_need : forward_need aloop.
Proof.
  exists 0. eexists. exists 1, 102. split; [reflexivity|]. split; [now left|]. split; [lia|].
  exists 0, (usei 3 102). split; [eexists; split; reflexivity|]. split; [|intros; lia].
  left. exists 1. split; [now left|reflexivity].
Qed.
Example aloop_live : exists ins outs, liveness 400 aloop = Some (ins, outs) /\ bshas (nth 1 outs 0%N) 102 = true /\ bshas (nth 1 outs 0%N) 103 = true /\ bshas (nth 1 outs 0%N) 104 = false.
Proof. do 2 eexists. split; [vm_compute; reflexivity|]. repeat split. Qed.

(* C26.  When colouring ends without spills, machine registers keep themselves, every register an instruction reads or
   writes gets a machine register that can hold values and has its size, and registers joined in the interference graph
   get machine registers that share no storage. *)
Theorem C26_colouring p fuel should never col : wf_prog p -> allocate fuel should never p = Some (col, 0%N) ->
  (forall r, r < nphys -> nth r col 0 = r) /\
  (forall i r, in_prog p i -> reads i r \/ writes i r -> framereg r = false -> general (nth r col 0) = true /\ hwmode (nth r col 0) = vmode p r) /\
  (forall ins outs s init, liveness fuel p = Some (ins, outs) -> build p outs (setup p) 0%N = (s, init) ->
     forall x y, gbhasedge s x y = true -> hw (nth x col 0) <> hw (nth y col 0)).
Proof.
  intros W E. destruct (assigned p fuel should never col W E) as (A & B & ins & outs & s & init & El & Eb & C & _). split; auto. split.
  - intros i r Hi H F. apply B; [|now rewrite <- framereg_fixed]. pose proof (wf_nofix p i W Hi) as NF. apply (use_node p W i r Hi).
    destruct H as [H|H]; [left; now apply uses_reads|right; now apply defs_writes].
  - intros ins' outs' s' init' El' Eb' x y H. rewrite El in El'. injection El' as <- <-. rewrite Eb in Eb'. injection Eb' as <- <-. now apply C.
Qed.
(* Two registers whose values are needed at the same time share no storage.  forward_need: the liveness sets are right (C25);
   clean_copies: see Ra_Spec. *)
Theorem C26_disjoint_partial p fuel should never col : wf_prog p -> forward_need p -> clean_copies p -> allocate fuel should never p = Some (col, 0%N) ->
  forall d r, Conflict p d r -> nphys <= d \/ nphys <= r -> hw (nth d col 0) <> hw (nth r col 0).
Proof. exact (assignment p fuel should never col). Qed.

(* clean_copies is decided by the liveness sets *)
Definition cleanb (p : prog) (outs : list bset) : bool :=
  forallb (fun b => match blk p b with
    | None => true
    | Some bb => forallb (fun k => match nth_error (il bb) k with
        | Some i => match iop i, args i with
            | Omov, [Lreg src; Lreg dst] => negb (src <? nphys) || forallb (fun r => negb (bshas (flows (skipn (S k) (il bb)) (nth b outs 0%N)) r) ||
                 ((negb (hw_eqb (hw r) (hw src)) || (width (hwmode r) <=? width (hwmode src))) &&
                  (negb (src =? 59) || negb (hw_eqb (hw r) (Xmm 0))) && (negb (src =? 60) || negb (hw_eqb (hw r) (Xmm 1))) && (negb (src =? 101) || negb (hw_eqb (hw r) (Gpr 0))))) (seq 0 nphys)
            | _, _ => true end
        | None => true end) (seq 0 (length (il bb))) end) (seq 0 (length (blocks p))).
Lemma clean_of p fuel ins outs : wf_prog p -> forward_need p -> liveness fuel p = Some (ins, outs) -> cleanb p outs = true -> clean_copies p.
Proof.
  intros W F L H b k i src dst r A [O Ag] Ls Lr Nr. destruct A as (bb & Hb & Hk). cbn [fst snd] in Hb, Hk.
  unfold cleanb in H. rewrite forallb_forall in H. specialize (H b ltac:(apply in_seq; pose proof (blk_lt p b bb Hb); lia)). rewrite Hb in H.
  assert (Lk : k < length (il bb)) by (apply nth_error_Some; congruence).
  rewrite forallb_forall in H. specialize (H k ltac:(apply in_seq; lia)). rewrite Hk, O, Ag in H.
  apply orb_true_iff in H as [H|H]; [apply negb_true_iff, Nat.ltb_ge in H; lia|]. rewrite forallb_forall in H. specialize (H r ltac:(apply in_seq; lia)).
  apply needed_live in Nr. destruct (liveness_exact p W fuel ins outs F L b bb Hb) as (_ & _ & Q). apply (Q (S k) r) in Nr; [|lia]. rewrite Nr in H. cbn [negb orb] in H.
  rewrite !andb_true_iff, !orb_true_iff, !negb_true_iff in H. destruct H as (((H1 & H2) & H3) & H4).
  assert (X : forall a b, hw_eqb a b = false -> a <> b) by (intros x y E ->; assert (Y : hw_eqb y y = true) by (apply hw_eqb_eq; reflexivity); congruence).
  split; [|split; [|split]].
  - intros E. destruct H1 as [H1|H1]; [apply X in H1; congruence|now apply Nat.leb_le].
  - intros E. destruct H2 as [H2|H2]; [apply Nat.eqb_neq in H2; congruence|auto].
  - intros E. destruct H3 as [H3|H3]; [apply Nat.eqb_neq in H3; congruence|auto].
  - intros E. destruct H4 as [H4|H4]; [apply Nat.eqb_neq in H4; congruence|auto].
Qed.

(* a function that copies its argument out of %rdi, needs it and another value together, and returns through %rax *)
Definition pcopy : prog := mkProg
  [Some (mkBlock [defi 1 58; movi 2 58 102; defi 3 103] [1]); Some (mkBlock [usei 4 102; movi 5 103 53; usei 6 53] [])] 104 allq.
Example pcopy_wf : wf_prog pcopy.
Proof. apply wf_of; [reflexivity|reflexivity|]. apply nodup_dec_true. reflexivity. Qed.
Example pcopy_need : forward_need pcopy.
Proof.
  exists 0. eexists. exists 1, 102. split; [reflexivity|]. split; [now left|]. split; [lia|].
  exists 0, (usei 4 102). split; [eexists; split; reflexivity|]. split; [|intros; lia]. left. exists 1. split; [now left|reflexivity].
Qed.
Example pcopy_clean : clean_copies pcopy.
Proof.
  destruct (liveness 400 pcopy) as [[ins outs]|] eqn:E; [|vm_compute in E; discriminate].
  apply (clean_of pcopy 400 ins outs pcopy_wf pcopy_need E). vm_compute in E. injection E as <- <-. vm_compute. reflexivity.
Qed.
Example pcopy_conflict : Conflict pcopy 103 102.
Proof.
  exists 0, 2, (defi 3 103). split; [eexists; split; reflexivity|]. split; [left; exists 1; split; [now left|reflexivity]|]. split.
  - apply (need_edge pcopy 102 0 (mkBlock [defi 1 58; movi 2 58 102; defi 3 103] [1]) 1); [reflexivity|now left|discriminate|].
    eapply need_read; [eexists; split; reflexivity|]. left. exists 1. split; [now left|reflexivity].
  - split; [discriminate|]. intros (src & [O _] & _). discriminate O.
Qed.
(* the argument stays in %rdi, the other value is made in %rax *)
Example pcopy_allocated : exists col, allocate 400 (fun _ => false) (fun _ => false) pcopy = Some (col, 0%N) /\ nth 102 col 0 = 58 /\ nth 103 col 0 = 53.
Proof. eexists. split; [vm_compute; reflexivity|]. split; reflexivity. Qed.
Example pcopy_disjoint : forall fuel should never col, allocate fuel should never pcopy = Some (col, 0%N) -> hw (nth 103 col 0) <> hw (nth 102 col 0).
Proof. intros fuel should never col E. apply (C26_disjoint_partial pcopy fuel should never col pcopy_wf pcopy_need pcopy_clean E); [exact pcopy_conflict|right; unfold nphys; lia]. Qed.

(* Without the conditions on machine registers values are lost.  %ah (17) is needed while 102 is written, and 102 ends up in
   %rax, which contains it. *)
Definition highbyte : prog := mkProg
  [Some (mkBlock [defi 1 17; defi 2 102; usei 3 17; movi 4 102 53] [1]); Some (mkBlock [usei 5 53] [])] 103 allq.
(* proves that a register is needed, for straight-line pieces of concrete programs *)
Ltac reads1 := left; exists 1; split; [now left|reflexivity].
Ltac nokill := intros d [(q & Hq & Hd)|[]]; cbn in Hq; repeat destruct Hq as [<-|Hq]; try destruct Hq; cbn in Hd; try discriminate Hd; injection Hd as <-;
  (intros [Hk|(Hk1 & Hk2 & Hk3 & Hk4)]; [discriminate Hk|first [discriminate Hk3|clear - Hk1; unfold nphys in Hk1; lia|clear - Hk2; unfold nphys in Hk2; lia]]).
Theorem C26_highbyte_refuted : exists p fuel col d r, allocate fuel (fun _ => false) (fun _ => false) p = Some (col, 0%N) /\
  Conflict p d r /\ nphys <= d /\ nth d col 0 = 53 /\ hw r = hw 53.
Proof.
  exists highbyte, 400. destruct (allocate 400 (fun _ => false) (fun _ => false) highbyte) as [[col sp]|] eqn:E; [|vm_compute in E; discriminate].
  vm_compute in E. injection E as <- <-. eexists. exists 102, 17. split; [reflexivity|]. split; [|split; [unfold nphys; lia|split; reflexivity]].
  exists 0, 1, (defi 2 102). split; [eexists; split; reflexivity|]. split; [reads1|]. split; [eapply need_read; [eexists; split; reflexivity|reads1]|].
  split; [discriminate|]. intros (src & [O _] & _). discriminate O.
Qed.
(* 102 is a copy of the stack pointer; it is given %rsp itself, and writing it then destroys the stack pointer *)
Definition spcopy : prog := mkProg
  [Some (mkBlock [movi 1 59 102; usei 2 102; defi 3 102] [1]); Some (mkBlock [usei 4 102; usei 5 59] [])] 103 allq.
Theorem C26_stackpointer_refuted : exists p fuel col d, allocate fuel (fun _ => false) (fun _ => false) p = Some (col, 0%N) /\
  Conflict p d 59 /\ nphys <= d /\ nth d col 0 = 59.
Proof.
  exists spcopy, 400. destruct (allocate 400 (fun _ => false) (fun _ => false) spcopy) as [[col sp]|] eqn:E; [|vm_compute in E; discriminate].
  vm_compute in E. injection E as <- <-. eexists. exists 102. split; [reflexivity|]. split; [|split; [unfold nphys; lia|reflexivity]].
  exists 0, 2, (defi 3 102). split; [eexists; split; reflexivity|]. split; [reads1|]. split.
  - apply (need_edge spcopy 59 0 (mkBlock [movi 1 59 102; usei 2 102; defi 3 102] [1]) 1); [reflexivity|now left|discriminate|].
    eapply need_pass; [eexists; split; reflexivity|nokill|]. eapply need_read; [eexists; split; reflexivity|reads1].
  - split; [discriminate|]. intros (src & [O _] & _). discriminate O.
Qed.

Print Assumptions C25_exact_partial.
Print Assumptions C25_ends.
Print Assumptions C25_missed_refuted.
Print Assumptions C25_same_register_refuted.
Print Assumptions C26_colouring.
Print Assumptions C26_disjoint_partial.
Print Assumptions C26_highbyte_refuted.
Print Assumptions C26_stackpointer_refuted.
