From Verif Require Import Base Layout_Model Layout_Spec Layout_Proofs Call_Model Call_Spec Call_Proofs.
Local Open Scope N_scope.

Definition start : st := St 0 0 0.
Lemma start_ok : inregs start. Proof. unfold inregs; cbn; lia. Qed.

(* C56.  A function looks for its arguments exactly where every caller puts them.  vs is the
   number of declared arguments before the variadic ones; ts the types of all arguments.  (A void
   variadic argument occupies no bytes; the two sides record it differently.) *)
Theorem C56_agree : forall vs ts,
  (forall k t, nth_error ts k = Some t -> (vs <= k)%nat -> tybase t <> Tprim Pvoid) ->
  gencall vs 0 ts start = addarglocs vs 0 ts start.
Proof. intros vs ts H. apply agree; [apply start_ok|exact H]. Qed.
Print Assumptions C56_agree.

Lemma clash_nth (l : list place) i j p q hi lo a b : chain lo (stackof l) hi -> intsof l = seq a (length (intsof l)) ->
  fltsof l = seq b (length (fltsof l)) -> (i < j)%nat -> nth_error l i = Some p -> nth_error l j = Some q -> ~ clash p q.
Proof.
  revert i j lo a b. induction l as [|x l IH]; intros [|i] [|j] lo a b C I F L Hi Hj; cbn [nth_error] in *; try discriminate; try lia.
  - injection Hi as ->. apply nth_error_In in Hj. destruct p as [k|k|o n], q as [k'|k'|o' n']; cbn [clash]; auto.
    + intros <-. cbn [intsof flat_map app length seq] in I. injection I as -> I.
      fold (intsof l) in I. assert (In a (intsof l)) as Hin by (unfold intsof; apply in_flat_map; eexists; split; [exact Hj|now left]).
      rewrite I in Hin. apply in_seq in Hin. lia.
    + intros <-. cbn [fltsof flat_map app length seq] in F. injection F as -> F.
      fold (fltsof l) in F. assert (In b (fltsof l)) as Hin by (unfold fltsof; apply in_flat_map; eexists; split; [exact Hj|now left]).
      rewrite F in Hin. apply in_seq in Hin. lia.
    + intros (y & Y1 & Y2). cbn [stackof flat_map app chain] in C. destruct C as [_ C].
      assert (In (o', n') (stackof l)) as Hin by (unfold stackof; apply in_flat_map; eexists; split; [exact Hj|now left]).
      pose proof (chain_in _ _ _ _ _ C Hin). lia.
  - destruct x as [k|k|o n]; cbn [stackof intsof fltsof flat_map app chain length seq] in C, I, F.
    + injection I as _ I. apply (IH i j lo (S a) b); auto; lia.
    + injection F as _ F. apply (IH i j lo a (S b)); auto; lia.
    + destruct C as [_ C]. apply (IH i j (o + n) a b); auto; lia.
Qed.

(* The pieces of the arguments name existing registers or lie inside the stack area the caller
   reserves, whose size is a multiple of 16; no two pieces share storage; and the pieces of each
   argument hold the whole value, suitably aligned. *)
Theorem C56_places : forall vs ts pl s, room ts + 16 < 2 ^ 64 -> gencall vs 0 ts start = Some (pl, s) ->
  Forall2 holds ts pl /\
  Forall (valid (argsz ts 0)) (concat pl) /\
  (forall i j p q, (i < j)%nat -> nth_error (concat pl) i = Some p -> nth_error (concat pl) j = Some q -> ~ clash p q) /\
  (16 | argsz ts 0).
Proof.
  intros vs ts pl s B E. change (2 ^ 64) with W64 in B.
  destruct (gencall_chain vs ts 0 start pl s start_ok ltac:(cbn [aoff start]; lia) E) as (C & L & I & F & _ & _ & R & _).
  destruct (argsz_covers vs ts 0 start pl s 0 start_ok ltac:(cbn; lia) (N.divide_0_r 8) ltac:(lia) E) as [Z D].
  cbn [nin nfl aoff start] in *. rewrite Nat.sub_0_r in I, F. repeat split; auto.
  - apply (gencall_holds vs ts 0 start pl s start_ok); [cbn [aoff start]; lia|exact E].
  - rewrite Forall_forall. intros p Hp. destruct R as [R1 R2]. destruct p as [k|k|o n]; cbn [valid].
    + assert (In k (intsof (concat pl))) as Hk by (unfold intsof; apply in_flat_map; eexists; split; [exact Hp|now left]).
      rewrite I in Hk. apply in_seq in Hk. lia.
    + assert (In k (fltsof (concat pl))) as Hk by (unfold fltsof; apply in_flat_map; eexists; split; [exact Hp|now left]).
      rewrite F in Hk. apply in_seq in Hk. lia.
    + assert (In (o, n) (stackof (concat pl))) as Hk by (unfold stackof; apply in_flat_map; eexists; split; [exact Hp|now left]).
      pose proof (chain_in _ _ _ _ _ C Hk). lia.
  - intros i j p q Lij Hi Hj. eapply clash_nth with (a := O) (b := O); eauto.
    + rewrite I at 1. f_equal. rewrite I, seq_length. reflexivity.
    + rewrite F at 1. f_equal. rewrite F, seq_length. reflexivity.
Qed.
Print Assumptions C56_places.

(* Full statement: every call compiles.  Proved when no declared argument is a small aggregate of
   floats, is empty, or contains a union with a payload; each restriction is needed, as the three
   theorems below show. *)
Theorem C56_compiles_partial : forall vs ts,
  (forall k t, nth_error ts k = Some t -> (k < vs)%nat ->
     tybase t = Tprim Pvoid \/ (plain t /\ 0 < extent t < 2 ^ 64 /\ ~ onefloat t)) ->
  exists pl s, gencall vs 0 ts start = Some (pl, s).
Proof.
  intros vs ts H. destruct (gencall_some vs ts 0 start start_ok) as [[pl s] E]; [|eauto].
  intros k t Hk L. destruct (H k t Hk L) as [V|(P & E & O)].
  - rewrite classify_eq, V. split; discriminate.
  - split; [|exact O]. apply classify_plain; tauto.
Qed.
Print Assumptions C56_compiles_partial.

(* With the eight float registers taken, a struct of one float64 makes the compiler read its
   register table past the end. *)
Theorem C56_float_refuted : exists vs ts, Forall (fun t => plain t /\ 0 < extent t <= 8 /\ classify t <> None) ts /\
  (length ts <= vs)%nat /\ gencall vs 0 ts start = None.
Proof.
  exists 9%nat, (repeat (Tprim Pflt64) 8 ++ [Tstruct [("x"%string, Tprim Pflt64)]])%list.
  split; [|split; [cbn; lia|vm_compute; reflexivity]].
  repeat constructor; vm_compute; auto; discriminate.
Qed.
Print Assumptions C56_float_refuted.

(* A 12-byte pair of an int32 and a union with an int32 payload makes the compiler exit with an
   internal error. *)
Theorem C56_union_refuted : exists t, extent t = 12 /\ wf t /\ gencall 1 0 [t] start = None.
Proof.
  exists (Ttuple [Tprim Pint32; Tunion [("Some"%string, Some (Tprim Pint32)); ("None"%string, None)]]).
  split; [vm_compute; reflexivity|]. split; [|vm_compute; reflexivity].
  cbn [wf map fold_right snd fst]. repeat split; repeat constructor; cbn; intuition discriminate.
Qed.
Print Assumptions C56_union_refuted.

(* So does an empty struct. *)
Theorem C56_empty_refuted : exists t, extent t = 0 /\ plain t /\ wf t /\ gencall 1 0 [t] start = None.
Proof. exists (Tstruct []). repeat split; try constructor. Qed.
Print Assumptions C56_empty_refuted.

(* seven integers, a float pair, a byte array, a slice, then variadic arguments: registers, both
   halves of the pair, stack pieces with alignment, varargs on the stack *)
Example C56_example :
  let ts := repeat (Tprim Pint) 6 ++ [Tprim Pint16; Ttuple [Tprim Pflt32; Tprim Pflt64]; Tarray (Some 3) (Tprim Pbyte);
             Tslice 0; Tprim Pflt64; Tprim Pint8; Tprim Pint64] in
  gencall 11 0 ts start =
    Some (map (fun k => [Pint_reg k]) (seq 0 6) ++
          [[Pstack 0 2]; [Pflt_reg 0; Pflt_reg 1]; [Pstack 8 3]; [Pstack 16 16]; [Pflt_reg 2]; [Pstack 32 1]; [Pstack 40 8]],
          St 3 6 48)%list /\
  argsz ts 0 = 128 /\ room ts + 16 < 2 ^ 64 /\ addarglocs 11 0 ts start = gencall 11 0 ts start.
Proof. vm_compute. repeat split; reflexivity. Qed.

Lemma Forall2_len (A B : Type) (R : A -> B -> Prop) l m : Forall2 R l m -> length l = length m.
Proof. induction 1; cbn; auto. Qed.
Lemma map_snd_combine (A B : Type) (l : list A) (m : list B) : length l = length m -> map snd (combine l m) = m.
Proof. revert m; induction l as [|x l IH]; intros [|y m] H; cbn in *; try discriminate; auto. f_equal; auto. Qed.

(* the slots of a function's frame, as (offset below the frame pointer, size) *)
Definition small_size (two : bool) : N := if two then 16 else 8.
Definition slots (ts : list ty) (small : list bool) (sp : list N) : list (N * N) :=
  let '(a, b, c, _) := frame ts small sp in
  (combine a (map extent ts) ++ combine b (map small_size small) ++ combine c sp)%list.
Definition framesize ts small sp : N := snd (frame ts small sp).

(* C57.  In a function with local variables of types ts, aggregate arguments copied from one or two
   registers, and spilled registers of sp bytes, the frame has one slot for each; no two slots
   overlap; all lie between the stack pointer and the frame pointer, for every frame pointer;
   the stack pointer keeps the 16-byte alignment of the frame pointer; and every slot starts at a
   multiple of its value's alignment. *)
Theorem C57_frame : forall ts small sp fp, Forall (fun n => n = 1 \/ n = 2 \/ n = 4 \/ n = 8) sp ->
  sum (map extent ts) + sum (map small_size small) + sum sp + 32 < 2 ^ 64 ->
  (fp mod 16 = 0)%Z ->
  length (slots ts small sp) = (length ts + length small + length sp)%nat /\
  map snd (slots ts small sp) = (map extent ts ++ map small_size small ++ sp)%list /\
  (forall i j o n o' n', i <> j -> nth_error (slots ts small sp) i = Some (o, n) ->
     nth_error (slots ts small sp) j = Some (o', n') -> ~ slot_clash fp o n o' n') /\
  (forall o n, In (o, n) (slots ts small sp) ->
     fp - Z.of_N (framesize ts small sp) <= fp - Z.of_N o /\ fp - Z.of_N o + Z.of_N n <= fp)%Z /\
  ((fp - Z.of_N (framesize ts small sp)) mod 16 = 0)%Z /\
  (forall i t o n, nth_error ts i = Some t -> nth_error (slots ts small sp) i = Some (o, n) -> (0 < extent t)%N ->
     (fp - Z.of_N o) mod Z.of_N (alignment t) = 0)%Z /\
  (forall i b o n, nth_error small i = Some b -> nth_error (slots ts small sp) (length ts + i) = Some (o, n) ->
     (fp - Z.of_N o) mod 8 = 0)%Z /\
  (forall i m o n, nth_error sp i = Some m -> nth_error (slots ts small sp) (length ts + length small + i) = Some (o, n) ->
     (fp - Z.of_N o) mod Z.of_N m = 0)%Z.
Proof.
  intros ts small sp fp SP B FP. change (2 ^ 64) with W64 in B. change small_size with small8 in *.
  unfold framesize, slots, frame.
  destruct (locals 0 ts) as [a z1] eqn:E1. apply locals_down in E1; [|lia]. destruct E1 as (D1 & L1 & A1).
  pose proof (roundup_lt z1 8 ltac:(lia)) as R1. pose proof (roundup_ge z1 8 ltac:(lia)) as R2.
  rewrite (align_roundup z1 8) by (unfold p2; lia).
  destruct (smallargs (roundup z1 8) small) as [b z2] eqn:E2. apply smallargs_down in E2; [|lia]. destruct E2 as (D2 & L2 & A2 & Lb).
  destruct (spills z2 sp) as [c z3] eqn:E3. apply spills_down in E3; [|exact SP|lia]. destruct E3 as (D3 & L3 & A3).
  cbn [snd].
  pose proof (CUtil_Proofs.align_spec z3 4) as S. cbv zeta in S. change (2 ^ 4) with 16 in S.
  destruct S as (S1 & S2 & _); [unfold W64; lia|unfold W64 in *; lia|].
  assert (length a = length ts) as La by (symmetry; eapply Forall2_len; eauto).
  assert (length c = length sp) as Lc by (symmetry; eapply Forall2_len; eauto).
  change small_size with small8.
  set (l := (combine a (map extent ts) ++ combine b (map small8 small) ++ combine c sp)%list).
  assert (down 0 l z3) as D.
  { eapply down_app; [exact D1|]. eapply down_weak; [exact R2|]. eapply down_app; eauto. }
  assert (forall i o n, (i < length ts)%nat -> nth_error l i = Some (o, n) -> nth_error a i = Some o) as N1.
  { intros i o n Li Hn. unfold l in Hn. rewrite nth_error_app1 in Hn by (rewrite combine_length, map_length; lia).
    clear - Hn. revert i Hn. generalize (map extent ts) as m. induction a as [|x a IH]; intros m [|i] Hn; destruct m; cbn in *; try discriminate; eauto. congruence. }
  assert (forall i o n, (i < length small)%nat -> nth_error l (length ts + i) = Some (o, n) -> nth_error b i = Some o) as N2.
  { intros i o n Li Hn. unfold l in Hn. rewrite nth_error_app2 in Hn by (rewrite combine_length, map_length; lia).
    rewrite combine_length, map_length, La, Nat.min_id in Hn. replace (length ts + i - length ts)%nat with i in Hn by lia.
    rewrite nth_error_app1 in Hn by (rewrite combine_length, map_length; lia).
    clear - Hn. revert i Hn. generalize (map small8 small) as m. induction b as [|x b IH]; intros m [|i] Hn; destruct m; cbn in *; try discriminate; eauto. congruence. }
  assert (forall i o n, nth_error l (length ts + length small + i) = Some (o, n) -> nth_error c i = Some o) as N3.
  { intros i o n Hn. unfold l in Hn. rewrite nth_error_app2 in Hn by (rewrite combine_length, map_length; lia).
    rewrite combine_length, map_length, La, Nat.min_id in Hn.
    rewrite nth_error_app2 in Hn by (rewrite combine_length, map_length; lia).
    rewrite combine_length, map_length, Lb, Nat.min_id in Hn.
    replace (length ts + length small + i - length ts - length small)%nat with i in Hn by lia.
    clear - Hn. revert i c Hn. induction sp as [|x sp IH]; intros [|i] [|y c] Hn; cbn in *; try discriminate; eauto. congruence. }
  assert (forall k o, k = 1 \/ k = 2 \/ k = 4 \/ k = 8 -> (k | o) -> ((fp - Z.of_N o) mod Z.of_N k = 0)%Z) as AL.
  { intros k o K [q ->]. apply Z.mod_divide; [lia|]. apply Z.divide_sub_r.
    - apply Z.mod_divide in FP; [|discriminate]. eapply Z.divide_trans; [|exact FP].
      destruct K as [->|[->|[->| ->]]]; [exists 16%Z|exists 8%Z|exists 4%Z|exists 2%Z]; reflexivity.
    - exists (Z.of_N q). lia. }
  repeat split.
  - unfold l. rewrite !app_length, !combine_length, !map_length. lia.
  - unfold l. rewrite !map_app. f_equal; [|f_equal].
    + apply map_snd_combine. rewrite map_length. lia.
    + apply map_snd_combine. rewrite map_length. lia.
    + apply map_snd_combine. lia.
  - intros i j o n o' n' NE Hi Hj (x & X1 & X2).
    destruct (Nat.lt_total i j) as [Lij|[Lij|Lij]]; [|contradiction|].
    + pose proof (down_order _ _ _ _ _ _ _ _ _ D Lij Hi Hj). lia.
    + pose proof (down_order _ _ _ _ _ _ _ _ _ D Lij Hj Hi). lia.
  - pose proof (down_in _ _ _ _ _ D H). lia.
  - pose proof (down_in _ _ _ _ _ D H). lia.
  - apply Z.mod_divide; [discriminate|]. apply Z.divide_sub_r; [apply Z.mod_divide; auto; discriminate|].
    apply N.mod_divide in S2; [|discriminate]. destruct S2 as [q ->]. exists (Z.of_N q). lia.
  - intros i t o n Ht Hn P. apply N1 in Hn; [|apply nth_error_Some; congruence].
    apply AL; [apply alignment_p2|]. clear - A1 Ht Hn P. revert i Ht Hn. induction A1; intros [|i] Ht Hn; cbn in *; try discriminate; eauto.
    injection Ht as ->. injection Hn as ->. auto.
  - intros i bb o n Ht Hn. apply N2 in Hn; [|apply nth_error_Some; congruence].
    apply (AL 8); [lia|]. rewrite Forall_forall in A2. apply A2. eapply nth_error_In; eauto.
  - intros i m o n Ht Hn. apply N3 in Hn. apply AL.
    + rewrite Forall_forall in SP. apply SP. eapply nth_error_In; eauto.
    + clear - A3 Ht Hn. revert i Ht Hn. induction A3; intros [|i] Ht Hn; cbn in *; try discriminate; eauto.
      injection Ht as ->. injection Hn as ->. auto.
Qed.
Print Assumptions C57_frame.

Example C57_example :
  slots [Tprim Pint; Tarray (Some 3) (Tprim Pbyte); Tarray (Some 3) (Tprim Pint16); Tslice 0] [true; false] [1; 8] =
    [(4, 4); (9, 3); (16, 6); (32, 16); (48, 16); (56, 8); (57, 1); (72, 8)] /\
  framesize [Tprim Pint; Tarray (Some 3) (Tprim Pbyte); Tarray (Some 3) (Tprim Pint16); Tslice 0] [true; false] [1; 8] = 80.
Proof. vm_compute. split; reflexivity. Qed.
