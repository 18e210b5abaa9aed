(* Proofs about the construction of the control-flow graph and the missing-return check. *)
From Verif Require Import Base Cfg_Model Cfg_Spec Cfg_Reach.

Section B.
Context (noret : nat -> bool).
Let build := build noret.
Let ends := endsblock noret.

(* where control is just before element pc: block and position *)
Fixpoint locs (prev : option item) (n k : nat) (p : list item) : list (nat * nat) :=
  match p with
  | [] => [(k, n)]
  | IDecl :: p => (k, n) :: locs (Some IDecl) n k p
  | ILbl l :: p => (k, n) :: (if n + (if fallsinto prev then 1 else 0) =? 0 then locs (Some (ILbl l)) 0 k p else locs (Some (ILbl l)) 0 (S k) p)
  | IEx e :: p => (k, n) :: (if ends e then locs (Some (IEx e)) 0 (S k) p else locs (Some (IEx e)) (S n) k p)
  end.

Lemma locs_hd prev n k p : nth_error (locs prev n k p) 0 = Some (k, n).
Proof. destruct p as [|[|l|e] p]; reflexivity. Qed.

Lemma build_lbl prev cur ls l p : build prev cur ls (ILbl l :: p) =
  if length cur + (if fallsinto prev then 1 else 0) =? 0 then build (Some (ILbl l)) [] (ls ++ [l]) p
  else ((if fallsinto prev then cur ++ [mkjmp l] else cur), ls) :: build (Some (ILbl l)) [] [l] p.
Proof.
  unfold build. cbn [Cfg_Model.build]. destruct (fallsinto prev).
  - destruct (Nat.eqb_spec (length cur + 1) 0); [lia|]. destruct cur; reflexivity.
  - rewrite Nat.add_0_r. destruct cur; reflexivity.
Qed.
Lemma build_ex prev cur ls e p : build prev cur ls (IEx e :: p) =
  if ends e then (cur ++ [e], ls) :: build (Some (IEx e)) [] [] p else build (Some (IEx e)) (cur ++ [e]) ls p.
Proof. reflexivity. Qed.

Lemma build_hd p : forall prev cur ls, exists es ls' r, build prev cur ls p = (cur ++ es, ls ++ ls') :: r.
Proof.
  induction p as [|[|l|e] p IH]; intros prev cur ls.
  - exists [], [], []. cbn. now rewrite !app_nil_r.
  - apply IH.
  - rewrite build_lbl. destruct (_ =? 0) eqn:E.
    + apply Nat.eqb_eq in E. destruct cur; [|cbn in E; lia]. destruct (IH (Some (ILbl l)) [] (ls ++ [l])) as (es & ls' & r & ->).
      exists es, ([l] ++ ls'), r. now rewrite app_assoc.
    + destruct (fallsinto prev); [exists [mkjmp l]|exists []]; exists []; eexists; rewrite ?app_nil_r; reflexivity.
  - rewrite build_ex. destruct (ends e).
    + exists [e], []. eexists. rewrite app_nil_r. reflexivity.
    + destruct (IH (Some (IEx e)) (cur ++ [e]) ls) as (es & ls' & r & ->). exists (e :: es), ls', r. now rewrite <- app_assoc.
Qed.

Lemma build_labels p : forall prev cur ls, flat_map snd (build prev cur ls p) = ls ++ labels p.
Proof.
  induction p as [|[|l|e] p IH]; intros prev cur ls.
  - cbn. reflexivity.
  - apply IH.
  - rewrite build_lbl. destruct (_ =? 0); [rewrite IH, <- app_assoc; reflexivity|]. cbn [flat_map snd]. rewrite IH. reflexivity.
  - rewrite build_ex. destruct (ends e); cbn [flat_map snd]; rewrite IH; reflexivity.
Qed.

(* where expressions are *)
Lemma loc_ex p : forall prev cur ls k pc e, nth_error p pc = Some (IEx e) ->
  exists i n es ls', nth_error (locs prev (length cur) k p) pc = Some (k + i, n) /\
    nth_error (build prev cur ls p) i = Some (es, ls') /\ nth_error es n = Some e /\
    (ends e = false -> nth_error (locs prev (length cur) k p) (S pc) = Some (k + i, S n)).
Proof.
  induction p as [|x p IH]; intros prev cur ls k pc e E; [destruct pc; discriminate|].
  destruct pc as [|pc].
  - cbn in E. inversion E; subst x. rewrite build_ex. cbn [locs nth_error]. destruct (ends e) eqn:Ee.
    + exists 0, (length cur), (cur ++ [e]), ls. rewrite Nat.add_0_r. split; [reflexivity|]. split; [reflexivity|]. split; [|congruence].
      rewrite nth_error_app2, Nat.sub_diag by lia. reflexivity.
    + destruct (build_hd p (Some (IEx e)) (cur ++ [e]) ls) as (es & ls' & r & ->).
      exists 0, (length cur), ((cur ++ [e]) ++ es), (ls ++ ls'). rewrite Nat.add_0_r. split; [reflexivity|]. split; [reflexivity|]. split.
      * rewrite <- app_assoc, nth_error_app2, Nat.sub_diag by lia. reflexivity.
      * intros _. apply locs_hd.
  - cbn in E. destruct x as [|l|e'].
    + cbn [locs nth_error]. apply (IH (Some IDecl) cur ls k pc e E).
    + rewrite build_lbl. cbn [locs nth_error]. destruct (_ =? 0) eqn:Z.
      * exact (IH (Some (ILbl l)) [] (ls ++ [l]) k pc e E).
      * destruct (IH (Some (ILbl l)) [] [l] (S k) pc e E) as (i & n & es & ls' & H1 & H2 & H3 & H4).
        exists (S i), n, es, ls'. cbn [nth_error]. replace (k + S i) with (S k + i) by lia. auto.
    + rewrite build_ex. cbn [locs nth_error]. destruct (ends e').
      * destruct (IH (Some (IEx e')) [] [] (S k) pc e E) as (i & n & es & ls' & H1 & H2 & H3 & H4).
        exists (S i), n, es, ls'. cbn [nth_error]. replace (k + S i) with (S k + i) by lia. auto.
      * specialize (IH (Some (IEx e')) (cur ++ [e']) ls k pc e E). rewrite app_length in IH. cbn [length] in IH. rewrite Nat.add_1_r in IH. exact IH.
Qed.

Definition nodecl (p : list item) := ~ In IDecl p.
Definition okstate (prev : option item) (cur : list expr) := fallsinto prev = false -> cur = [] /\ prev <> Some IDecl.

Lemma okstate_step_ex e cur : okstate (Some (IEx e)) (if ends e then [] else cur ++ [e]).
Proof.
  intros H. cbn in H. unfold ends, endsblock. destruct (eop e); try discriminate; split; auto; discriminate.
Qed.

(* where labels are *)
Lemma loc_lbl p : forall prev cur ls k pc l, nodecl p -> okstate prev cur -> nth_error p pc = Some (ILbl l) ->
  exists i n j es ls' es' ls'', nth_error (locs prev (length cur) k p) pc = Some (k + i, n) /\
    nth_error (locs prev (length cur) k p) (S pc) = Some (k + j, 0) /\
    nth_error (build prev cur ls p) i = Some (es, ls') /\
    nth_error (build prev cur ls p) j = Some (es', ls'') /\ In l ls'' /\
    (i = j \/ nth_error es n = Some (mkjmp l)).
Proof.
  induction p as [|x p IH]; intros prev cur ls k pc l ND OK E; [destruct pc; discriminate|].
  assert (ND' : nodecl p) by (intros H; apply ND; now right).
  destruct pc as [|pc].
  - cbn in E. inversion E; subst x. rewrite build_lbl. cbn [locs nth_error]. destruct (fallsinto prev) eqn:F.
    + destruct (Nat.eqb_spec (length cur + 1) 0); [lia|].
      destruct (build_hd p (Some (ILbl l)) [] [l]) as (es & ls' & r & ->).
      exists 0, (length cur), 1, (cur ++ [mkjmp l]), ls, es, ([l] ++ ls'). rewrite Nat.add_0_r. replace (k + 1) with (S k) by lia.
      split; [reflexivity|]. split; [apply locs_hd|]. repeat split; auto; [now left|].
      right. rewrite nth_error_app2, Nat.sub_diag by lia. reflexivity.
    + destruct (OK F) as [-> _]. cbn [length Nat.add Nat.eqb].
      destruct (build_hd p (Some (ILbl l)) [] (ls ++ [l])) as (es & ls' & r & ->).
      exists 0, 0, 0, es, ((ls ++ [l]) ++ ls'), es, ((ls ++ [l]) ++ ls'). rewrite Nat.add_0_r.
      split; [reflexivity|]. split; [apply locs_hd|]. repeat split; auto. apply in_or_app. left. apply in_or_app. right. now left.
  - cbn in E. destruct x as [|l'|e'].
    + exfalso. apply ND. now left.
    + assert (OK' : okstate (Some (ILbl l')) []) by (intros H; discriminate H).
      rewrite build_lbl. cbn [locs nth_error]. destruct (_ =? 0) eqn:Z.
      * exact (IH (Some (ILbl l')) [] (ls ++ [l']) k pc l ND' OK' E).
      * destruct (IH (Some (ILbl l')) [] [l'] (S k) pc l ND' OK' E) as (i & n & j & es & ls' & es' & ls'' & H1 & H2 & H3 & H4 & H5 & H6).
        exists (S i), n, (S j), es, ls', es', ls''. cbn [nth_error]. replace (k + S i) with (S k + i) by lia. replace (k + S j) with (S k + j) by lia.
        repeat split; auto. destruct H6; auto.
    + pose proof (okstate_step_ex e' cur) as OK'. rewrite build_ex. cbn [locs nth_error]. destruct (ends e').
      * destruct (IH (Some (IEx e')) [] [] (S k) pc l ND' OK' E) as (i & n & j & es & ls' & es' & ls'' & H1 & H2 & H3 & H4 & H5 & H6).
        exists (S i), n, (S j), es, ls', es', ls''. cbn [nth_error]. replace (k + S i) with (S k + i) by lia. replace (k + S j) with (S k + j) by lia.
        repeat split; auto. destruct H6; auto.
      * specialize (IH (Some (IEx e')) (cur ++ [e']) ls k pc l ND' OK' E). rewrite app_length in IH. cbn [length] in IH. rewrite Nat.add_1_r in IH. exact IH.
Qed.

(* a label either leaves control where it is or starts the next block *)
Lemma loc_lbl_same p : forall prev cur k pc l, nodecl p -> okstate prev cur -> nth_error p pc = Some (ILbl l) ->
  nth_error (locs prev (length cur) k p) (S pc) = nth_error (locs prev (length cur) k p) pc \/
  exists q, (exists n, nth_error (locs prev (length cur) k p) pc = Some (q, n)) /\ nth_error (locs prev (length cur) k p) (S pc) = Some (S q, 0).
Proof.
  induction p as [|x p IH]; intros prev cur k pc l ND OK E; [destruct pc; discriminate|].
  assert (ND' : nodecl p) by (intros H; apply ND; now right).
  destruct pc as [|pc].
  - cbn in E. inversion E; subst x. cbn [locs]. destruct (fallsinto prev) eqn:F.
    + destruct (Nat.eqb_spec (length cur + 1) 0); [lia|]. right. exists k. cbn [nth_error]. split; [exists (length cur); reflexivity|]. apply locs_hd.
    + destruct (OK F) as [-> _]. cbn [length Nat.add Nat.eqb]. left. apply (locs_hd (Some (ILbl l)) 0 k p).
  - cbn in E. destruct x as [|l'|e'].
    + exfalso. apply ND. now left.
    + assert (OK' : okstate (Some (ILbl l')) []) by (intros H; discriminate H).
      cbn [locs nth_error]. destruct (_ =? 0); [exact (IH _ [] k pc l ND' OK' E)|exact (IH _ [] (S k) pc l ND' OK' E)].
    + pose proof (okstate_step_ex e' cur) as OK'. cbn [locs nth_error]. destruct (ends e').
      * exact (IH _ [] (S k) pc l ND' OK' E).
      * specialize (IH (Some (IEx e')) (cur ++ [e']) k pc l ND' OK' E). rewrite app_length in IH. cbn [length] in IH. rewrite Nat.add_1_r in IH. exact IH.
Qed.

Lemma build_nonnil prev cur ls p : build prev cur ls p <> [].
Proof. destruct (build_hd p prev cur ls) as (? & ? & ? & ->). discriminate. Qed.

Lemma loc_end p : forall prev cur ls k, exists es ls',
  nth_error (locs prev (length cur) k p) (length p) = Some (k + (length (build prev cur ls p) - 1), length es) /\
  nth_error (build prev cur ls p) (length (build prev cur ls p) - 1) = Some (es, ls').
Proof.
  assert (Shift : forall k p0 q e, k + (length (e :: build p0 [] q p) - 1) = S k + (length (build p0 [] q p) - 1)).
  { intros. pose proof (build_nonnil p0 [] q p). destruct (build p0 [] q p); [congruence|]. cbn. lia. }
  clear Shift.
  assert (Shift : forall (b : list (list expr * list lbl)) k e, b <> [] -> k + (length (e :: b) - 1) = S k + (length b - 1) /\
     forall x, nth_error b (length b - 1) = Some x -> nth_error (e :: b) (length (e :: b) - 1) = Some x).
  { intros b k e H. destruct b as [|y b]; [congruence|]. cbn [length]. split; [lia|]. intros x Hx.
    replace (S (S (length b)) - 1) with (S (S (length b) - 1)) by lia. exact Hx. }
  induction p as [|[|l|e] p IH]; intros prev cur ls k.
  - exists cur, ls. cbn [locs length nth_error Cfg_Model.build build]. cbn. now rewrite Nat.add_0_r.
  - destruct (IH (Some IDecl) cur ls k) as (es & ls' & H). exists es, ls'. exact H.
  - rewrite build_lbl. cbn [locs length nth_error]. destruct (_ =? 0).
    + exact (IH (Some (ILbl l)) [] (ls ++ [l]) k).
    + destruct (IH (Some (ILbl l)) [] [l] (S k)) as (es & ls' & H1 & H2). exists es, ls'.
      destruct (Shift _ k ((if fallsinto prev then cur ++ [mkjmp l] else cur), ls) (build_nonnil (Some (ILbl l)) [] [l] p)) as [S1 S2].
      split; [|now apply S2]. rewrite S1. exact H1.
  - rewrite build_ex. cbn [locs length nth_error]. destruct (ends e).
    + destruct (IH (Some (IEx e)) [] [] (S k)) as (es & ls' & H1 & H2). exists es, ls'.
      destruct (Shift _ k (cur ++ [e], ls) (build_nonnil (Some (IEx e)) [] [] p)) as [S1 S2].
      split; [|now apply S2]. rewrite S1. exact H1.
    + specialize (IH (Some (IEx e)) (cur ++ [e]) ls k). rewrite app_length in IH. cbn [length] in IH. rewrite Nat.add_1_r in IH. exact IH.
Qed.

(* block-ending statements are last in their block, and every block but the last has one *)
Definition plain (es : list expr) := Forall (fun e => ends e = false) es.
Definition closed (es : list expr) := exists pre e, es = pre ++ [e] /\ plain pre /\ ends e = true.

Lemma ends_mkjmp l : ends (mkjmp l) = true. Proof. reflexivity. Qed.

Lemma build_shape p : forall prev cur ls, nodecl p -> okstate prev cur -> plain cur ->
  exists front last lls, build prev cur ls p = front ++ [(last, lls)] /\ plain last /\ Forall (fun b => closed (fst b)) front.
Proof.
  induction p as [|[|l|e] p IH]; intros prev cur ls ND OK Pl.
  - exists [], cur, ls. repeat split; auto.
  - exfalso. apply ND. now left.
  - assert (ND' : nodecl p) by (intros H; apply ND; now right).
    assert (OK' : okstate (Some (ILbl l)) []) by (intros H; discriminate H).
    assert (Pn : plain []) by constructor.
    rewrite build_lbl. destruct (fallsinto prev) eqn:F.
    + destruct (Nat.eqb_spec (length cur + 1) 0); [lia|].
      destruct (IH (Some (ILbl l)) [] [l] ND' OK' Pn) as (f & la & ll & -> & P1 & P2).
      exists ((cur ++ [mkjmp l], ls) :: f), la, ll. repeat split; auto. constructor; auto.
      exists cur, (mkjmp l). auto.
    + destruct (OK F) as [-> _]. cbn [length Nat.add Nat.eqb]. apply IH; auto.
  - assert (ND' : nodecl p) by (intros H; apply ND; now right).
    pose proof (okstate_step_ex e cur) as OK'. rewrite build_ex. destruct (ends e) eqn:Ee.
    + destruct (IH (Some (IEx e)) [] [] ND' OK' ltac:(constructor)) as (f & la & ll & -> & P1 & P2).
      exists ((cur ++ [e], ls) :: f), la, ll. repeat split; auto. constructor; auto. exists cur, e. auto.
    + apply IH; auto. apply Forall_app. split; auto.
Qed.

Lemma plain_at es n e : plain es -> nth_error es n = Some e -> ends e = false.
Proof. intros H E. apply nth_error_In in E. unfold plain in H. rewrite Forall_forall in H. auto. Qed.
Lemma closed_at pre e n x : plain pre -> nth_error (pre ++ [e]) n = Some x -> ends x = true -> x = e /\ n = length pre.
Proof.
  intros H E X. destruct (Nat.lt_ge_cases n (length pre)).
  - rewrite nth_error_app1 in E by auto. apply (plain_at pre n x H) in E. congruence.
  - rewrite nth_error_app2 in E by auto. destruct (n - length pre) as [|[|]] eqn:D; cbn in E; try discriminate. split; [congruence|lia].
Qed.

Lemma trimpos_plain es : plain es -> trimpos noret es = (length es, false).
Proof.
  induction 1 as [|e es He H IH]; [reflexivity|]. cbn [trimpos length]. unfold ends, endsblock in He.
  rewrite IH. destruct (eop e); try discriminate; auto. now rewrite He.
Qed.
Definition deadend (e : expr) : bool := match eop e with Odead => true | Ocall => isnonretcall noret e | _ => false end.
Lemma trimpos_closed pre e : plain pre -> ends e = true -> trimpos noret (pre ++ [e]) = (length (pre ++ [e]), deadend e).
Proof.
  induction 1 as [|x es He H IH]; intros E.
  - cbn [app trimpos length]. unfold ends, endsblock, deadend in *. destruct (eop e); try discriminate; auto. now rewrite E.
  - cbn [app trimpos length]. specialize (IH E). rewrite IH. unfold ends, endsblock in He. destruct (eop x); try discriminate; auto. now rewrite He.
Qed.

(* --- labels to blocks --- *)
Lemma lookup_none l bs : forall k, ~ In l (flat_map snd bs) -> lookup l k bs = None.
Proof.
  induction bs as [|[es ls] bs IH]; intros k H; [reflexivity|]. cbn [lookup]. cbn in H. rewrite in_app_iff in H.
  rewrite IH by tauto. destruct (existsb (Nat.eqb l) ls) eqn:E; auto. exfalso. apply H. left.
  apply existsb_exists in E as (x & Hx & E). apply Nat.eqb_eq in E. now subst.
Qed.
Lemma lookup_spec l bs : forall k i es ls, NoDup (flat_map snd bs) -> nth_error bs i = Some (es, ls) -> In l ls -> lookup l k bs = Some (k + i).
Proof.
  induction bs as [|[es0 ls0] bs IH]; intros k i es ls ND E Hl; [destruct i; discriminate|].
  cbn in ND. destruct i as [|i].
  - cbn in E. inversion E; subst. cbn [lookup]. rewrite lookup_none.
    + replace (existsb (Nat.eqb l) ls) with true; [now rewrite Nat.add_0_r|]. symmetry. apply existsb_exists. exists l. split; auto. apply Nat.eqb_refl.
    + clear - ND Hl. induction ls as [|y ls IHl]; [destruct Hl|]. cbn in ND. inversion ND as [|? ? Hy ND']; subst.
      destruct Hl as [->|Hl]; auto. intros H. apply Hy. apply in_or_app. now right.
  - cbn in E. cbn [lookup]. assert (ND' : NoDup (flat_map snd bs)). { clear - ND. induction ls0; auto. inversion ND; auto. }
    rewrite (IH (S k) i es ls ND' E Hl). f_equal. lia.
Qed.

Lemma lookups_in l ls bs ts : lookups ls bs = Some ts -> In l ls -> exists j, lookup l 1 bs = Some j /\ In j ts.
Proof.
  revert ts; induction ls as [|x ls IH]; intros ts E H; [destruct H|]. cbn [lookups] in E.
  destruct (lookup x 1 bs) as [j|] eqn:Ex; [|discriminate]. destruct (lookups ls bs) as [js|]; [|discriminate]. inversion E; subst.
  destruct H as [->|H]; [exists j; split; auto; now left|]. destruct (IH js eq_refl H) as (j' & E' & H'). exists j'. split; auto. now right.
Qed.
Lemma alltargets_in bs post es e ts : alltargets bs post es = Some ts -> In e es -> exists te, targets bs post e = Some te /\ incl te ts.
Proof.
  revert ts; induction es as [|x es IH]; intros ts E H; [destruct H|]. cbn [alltargets] in E.
  destruct (targets bs post x) as [a|] eqn:Ex; [|discriminate]. destruct (alltargets bs post es) as [b|]; [|discriminate]. inversion E; subst.
  destruct H as [->|H]; [exists a; split; auto; apply incl_appl, incl_refl|]. destruct (IH b eq_refl H) as (te & E' & H'). exists te. split; auto. now apply incl_appr.
Qed.
Lemma alltargets_inv bs post es ts t : alltargets bs post es = Some ts -> In t ts -> exists e te, In e es /\ targets bs post e = Some te /\ In t te.
Proof.
  revert ts; induction es as [|x es IH]; intros ts E H; cbn [alltargets] in E; [inversion E; subst; destruct H|].
  destruct (targets bs post x) as [a|] eqn:Ex; [|discriminate]. destruct (alltargets bs post es) as [b|]; [|discriminate]. inversion E; subst.
  apply in_app_or in H as [H|H]; [exists x, a; repeat split; auto; now left|].
  destruct (IH b eq_refl H) as (e & te & H1 & H2 & H3). exists e, te. repeat split; auto. now right.
Qed.
Lemma jumpedges_in all post bs : forall k js i es ls t, jumpedges all post k bs = Some js -> nth_error bs i = Some (es, ls) ->
  forall ts, alltargets all post es = Some ts -> In t ts -> In (k + i, t) js.
Proof.
  induction bs as [|[es0 ls0] bs IH]; intros k js i es ls t E N ts T Ht; [destruct i; discriminate|].
  cbn [jumpedges] in E. destruct (alltargets all post es0) as [ts0|] eqn:E0; [|discriminate].
  destruct (jumpedges all post (S k) bs) as [r|] eqn:Er; [|discriminate]. inversion E; subst. apply in_or_app.
  destruct i as [|i]; cbn in N.
  - inversion N; subst. left. rewrite Nat.add_0_r. apply in_map. congruence.
  - right. replace (k + S i) with (S k + i) by lia. eapply IH; eauto.
Qed.
Lemma jumpedges_ok all post bs : forall k js i es ls, jumpedges all post k bs = Some js -> nth_error bs i = Some (es, ls) ->
  exists ts, alltargets all post es = Some ts.
Proof.
  induction bs as [|[es0 ls0] bs IH]; intros k js i es ls E N; [destruct i; discriminate|].
  cbn [jumpedges] in E. destruct (alltargets all post es0) as [ts0|] eqn:E0; [|discriminate].
  destruct (jumpedges all post (S k) bs) as [r|] eqn:Er; [|discriminate].
  destruct i as [|i]; cbn in N; [inversion N; subst; eauto|eauto].
Qed.
Lemma jumpedges_inv all post bs : forall k js i t, jumpedges all post k bs = Some js -> In (i, t) js ->
  exists i' es ls ts, i = k + i' /\ nth_error bs i' = Some (es, ls) /\ alltargets all post es = Some ts /\ In t ts.
Proof.
  induction bs as [|[es0 ls0] bs IH]; intros k js i t E H; cbn [jumpedges] in E; [inversion E; subst; destruct H|].
  destruct (alltargets all post es0) as [ts0|] eqn:E0; [|discriminate].
  destruct (jumpedges all post (S k) bs) as [r|] eqn:Er; [|discriminate]. inversion E; subst. apply in_app_or in H as [H|H].
  - apply in_map_iff in H as (t' & Q & Ht). inversion Q; subst. exists 0, es0, ls0, ts0. rewrite Nat.add_0_r. auto.
  - destruct (IH (S k) r i t Er H) as (i' & es & ls & ts & -> & H1 & H2 & H3). exists (S i'), es, ls, ts. repeat split; auto. lia.
Qed.

(* --- the graph before trimming --- *)
Lemma has_mkset l j : bshas (mkset l) j = true <-> In j l.
Proof.
  unfold mkset. rewrite has_fold_put, has_0. cbn [orb]. rewrite existsb_exists. split.
  - intros (x & Hx & E). apply Nat.eqb_eq in E. congruence.
  - intros H. exists j. split; auto. apply Nat.eqb_refl.
Qed.

Lemma nth_combine_seq (A : Type) (l : list A) : forall s i, nth_error (combine (seq s (length l)) l) i = option_map (fun x => (s + i, x)) (nth_error l i).
Proof.
  induction l as [|x l IH]; intros s i; [now destruct i|]. cbn [length seq combine]. destruct i as [|i]; cbn [nth_error option_map].
  - now rewrite Nat.add_0_r.
  - rewrite IH. destruct (nth_error l i); cbn; auto. do 2 f_equal. lia.
Qed.

Lemma mkgraph_length bs es : length (mkgraph bs es) = length bs.
Proof. unfold mkgraph. rewrite map_length, combine_length, seq_length. lia. Qed.

Lemma blk_mkgraph bs es i : blk (mkgraph bs es) i =
  match nth_error bs i with
  | Some (e, l) => Some (mkBb e l (mkset (map fst (filter (fun x => snd x =? i) es))) (mkset (map snd (filter (fun x => fst x =? i) es))))
  | None => None
  end.
Proof.
  unfold blk, mkgraph. pose proof (nth_combine_seq _ bs 0 i) as H. cbn [Nat.add] in H.
  destruct (nth_error bs i) as [[e l]|] eqn:E; cbn [option_map] in H.
  - apply nth_error_nth. now rewrite nth_error_map, H.
  - apply nth_overflow. rewrite map_length. now apply nth_error_None.
Qed.
Lemma pred_edges es i j : bshas (mkset (map fst (filter (fun x => snd x =? j) es))) i = true <-> In (i, j) es.
Proof.
  rewrite has_mkset, in_map_iff. split.
  - intros ([a b] & <- & H). apply filter_In in H as [H E]. apply Nat.eqb_eq in E. cbn in *. now subst.
  - intros H. exists (i, j). split; auto. apply filter_In. split; auto. apply Nat.eqb_refl.
Qed.
Lemma succ_edges es i j : bshas (mkset (map snd (filter (fun x => fst x =? i) es))) j = true <-> In (i, j) es.
Proof.
  rewrite has_mkset, in_map_iff. split.
  - intros ([a b] & <- & H). apply filter_In in H as [H E]. apply Nat.eqb_eq in E. cbn in *. now subst.
  - intros H. exists (i, j). split; auto. apply filter_In. split; auto. apply Nat.eqb_refl.
Qed.

(* --- trimming --- *)
Section Trim.
Context (g0 : cfg) (post : nat).
Definition E0 i j := exists b, blk g0 j = Some b /\ bshas (pred b) i = true.
Definition dead0 i := exists b, blk g0 i = Some b /\ snd (trimpos noret (nl b)) = true.
Inductive live : nat -> Prop :=
| live0 : live 0
| live_edge : forall i j, live i -> ~ dead0 i -> E0 i j -> live j.

(* all edges join existing blocks; both directions agree; node lists are already trimmed *)
Hypothesis G_both : forall i j, E0 i j -> exists bi, blk g0 i = Some bi /\ bshas (succ bi) j = true.
Hypothesis G_trim : forall i b, blk g0 i = Some b -> fst (trimpos noret (nl b)) = length (nl b).
Hypothesis G_start : exists b, blk g0 0 = Some b.

Definition J (g : cfg) : Prop :=
  length g = length g0 /\
  (forall i b, blk g i = Some b -> exists b0, blk g0 i = Some b0 /\ nl b = nl b0) /\
  (forall i, live i -> exists b, blk g i = Some b) /\
  (forall i j b, live i -> ~ dead0 i -> E0 i j -> blk g j = Some b -> bshas (pred b) i = true) /\
  (forall i j b, blk g j = Some b -> bshas (pred b) i = true -> E0 i j /\ exists bi, blk g i = Some bi /\ bshas (succ bi) j = true) /\
  (forall i j b, blk g i = Some b -> bshas (succ b) j = true -> exists bj, blk g j = Some bj /\ bshas (pred bj) i = true).

Lemma live_blk i : live i -> exists b, blk g0 i = Some b.
Proof. destruct 1 as [|i j _ _ (b & Hb & _)]; eauto. Qed.

Lemma blk_set g i x j : i < length g -> blk (set_blk g i x) j = if j =? i then x else blk g j.
Proof. intros H. unfold blk, set_blk. rewrite nth_upd_any. apply Nat.ltb_lt in H. now rewrite H, andb_true_r. Qed.
Lemma blk_lt' g i b : blk g i = Some b -> i < length g.
Proof. apply blk_lt. Qed.
Lemma set_length g i x : length (set_blk g i x) = length g.
Proof. apply upd_length. Qed.

Definition setpred b f := mkBb (nl b) (lbls b) (f (pred b)) (succ b).
Definition setsucc b f := mkBb (nl b) (lbls b) (pred b) (f (succ b)).
Lemma blk_map_pred g i f j : blk (map_pred g i f) j = if j =? i then option_map (fun b => setpred b f) (blk g i) else blk g j.
Proof.
  unfold map_pred. destruct (blk g i) as [b|] eqn:E.
  - rewrite blk_set by (eapply blk_lt; eauto). destruct (j =? i); reflexivity.
  - destruct (Nat.eqb_spec j i) as [->|]; auto.
Qed.
Lemma blk_map_succ g i f j : blk (map_succ g i f) j = if j =? i then option_map (fun b => setsucc b f) (blk g i) else blk g j.
Proof.
  unfold map_succ. destruct (blk g i) as [b|] eqn:E.
  - rewrite blk_set by (eapply blk_lt; eauto). destruct (j =? i); reflexivity.
  - destruct (Nat.eqb_spec j i) as [->|]; auto.
Qed.
Lemma map_pred_length g i f : length (map_pred g i f) = length g.
Proof. unfold map_pred. destruct (blk g i); auto. apply set_length. Qed.
Lemma map_succ_length g i f : length (map_succ g i f) = length g.
Proof. unfold map_succ. destruct (blk g i); auto. apply set_length. Qed.

Lemma fold_map_pred f l : forall g, NoDup l -> length (fold_left (fun g j => map_pred g j f) l g) = length g /\
  forall j, blk (fold_left (fun g j => map_pred g j f) l g) j = if existsb (Nat.eqb j) l then option_map (fun b => setpred b f) (blk g j) else blk g j.
Proof.
  induction l as [|x l IH]; intros g ND; cbn [fold_left existsb]; auto. inversion ND as [|? ? Hx ND']; subst.
  destruct (IH (map_pred g x f) ND') as [H1 H2]. split; [now rewrite H1, map_pred_length|]. intros j. rewrite H2, blk_map_pred.
  destruct (Nat.eqb_spec j x) as [->|]; cbn [orb]; auto.
  destruct (existsb (Nat.eqb x) l) eqn:E; auto. exfalso. apply Hx. apply existsb_exists in E as (y & Hy & E). apply Nat.eqb_eq in E. congruence.
Qed.
Lemma members_nodup n s : NoDup (members n s).
Proof. apply NoDup_filter, seq_NoDup. Qed.
Lemma existsb_members j n s : existsb (Nat.eqb j) (members n s) = (j <? n) && bshas s j.
Proof.
  apply eq_true_iff_eq. rewrite andb_true_iff, Nat.ltb_lt, <- in_members, existsb_exists. split.
  - intros (x & Hx & E). apply Nat.eqb_eq in E. congruence.
  - intros H. exists j. split; auto. apply Nat.eqb_refl.
Qed.

(* removing the outgoing edges of a block *)
Lemma noexit_spec g i b : J g -> blk g i = Some b -> length (noexit g i) = length g /\
  forall j, blk (noexit g i) j = option_map (fun x => let x := setpred x (fun s => bsdel s i) in if j =? i then setsucc x (fun _ => 0%N) else x) (blk g j).
Proof.
  intros (L & J1 & J2 & J3 & J4 & J5) Hb. unfold noexit. rewrite Hb.
  destruct (fold_map_pred (fun s => bsdel s i) (members (length g) (succ b)) g (members_nodup _ _)) as [F1 F2].
  split; [now rewrite map_succ_length|]. intros j. rewrite blk_map_succ, !F2, !existsb_members.
  assert (Noop : forall k x, blk g k = Some x -> (k <? length g) && bshas (succ b) k = false -> setpred x (fun s => bsdel s i) = x).
  { intros k x Hk E. destruct x as [n0 l0 p0 s0]. unfold setpred. cbn [nl lbls pred succ]. f_equal. apply bset_ext. intros q. rewrite has_del.
    destruct (Nat.eqb_spec i q) as [<-|]; [|now rewrite andb_true_r]. rewrite andb_false_r.
    destruct (bshas p0 i) eqn:P; auto. exfalso. destruct (J4 i k _ Hk P) as [_ (bi & Hbi & S)]. assert (bi = b) by congruence. subst bi.
    rewrite S, andb_true_r in E. apply Nat.ltb_ge in E. apply blk_lt in Hk. lia. }
  destruct (Nat.eqb_spec j i) as [->|Hne].
  - rewrite Hb. cbn [option_map]. destruct (_ && _) eqn:E; cbn [option_map]; auto. now rewrite (Noop i b Hb E).
  - destruct (blk g j) as [x|] eqn:Hj; [|now destruct (_ && _)]. cbn [option_map]. destruct (_ && _) eqn:E; auto. now rewrite (Noop j x Hj E).
Qed.

Lemma noexit_J g i b : J g -> blk g i = Some b -> dead0 i -> J (noexit g i).
Proof.
  intros HJ Hb Hd. destruct (noexit_spec g i b HJ Hb) as [L B]. destruct HJ as (L0 & J1 & J2 & J3 & J4 & J5).
  repeat split.
  - lia.
  - intros j x Hx. rewrite B in Hx. destruct (blk g j) as [y|] eqn:Hj; [|discriminate]. cbn in Hx. inversion Hx; subst.
    destruct (J1 j y Hj) as (b0 & H1 & H2). exists b0. split; auto. rewrite <- H2. destruct (j =? i); reflexivity.
  - intros j Hj. destruct (J2 j Hj) as (y & Hy). rewrite B, Hy. cbn. eauto.
  - intros k j x Hk Hnd HE Hx. rewrite B in Hx. destruct (blk g j) as [y|] eqn:Hj; [|discriminate]. cbn in Hx. inversion Hx; subst.
    assert (k <> i) by (intros ->; contradiction). assert (P := J3 k j y Hk Hnd HE Hj).
    destruct (j =? i); cbn [setpred setsucc pred]; rewrite has_del, P; apply negb_true_iff; apply Nat.eqb_neq; congruence.
  - rewrite B in H. destruct (blk g j) as [y|] eqn:Hj; [|discriminate]. cbn in H. inversion H; subst.
    assert (P : bshas (pred y) i0 = true). { destruct (j =? i); cbn [setpred setsucc pred] in H0; rewrite has_del in H0; now apply andb_true_iff in H0. }
    now apply (J4 i0 j y Hj P).
  - rewrite B in H. destruct (blk g j) as [y|] eqn:Hj; [|discriminate]. cbn in H. inversion H; subst.
    assert (P : bshas (pred y) i0 = true /\ i <> i0). { destruct (j =? i); cbn [setpred setsucc pred] in H0; rewrite has_del in H0; apply andb_true_iff in H0 as [H0 Q]; apply negb_true_iff, Nat.eqb_neq in Q; auto. }
    destruct P as [P Hne]. destruct (J4 i0 j y Hj P) as [_ (bi & Hbi & S)]. rewrite B, Hbi. cbn. eexists. split; [reflexivity|].
    destruct (Nat.eqb_spec i0 i); [congruence|]. exact S.
  - intros k j x Hx Hs. rewrite B in Hx. destruct (blk g k) as [y|] eqn:Hk; [|discriminate]. cbn in Hx. inversion Hx; subst.
    destruct (Nat.eqb_spec k i) as [->|Hne]; cbn [setpred setsucc succ] in Hs; [rewrite has_0 in Hs; discriminate|].
    destruct (J5 k j y Hk Hs) as (bj & Hbj & P). rewrite B, Hbj. cbn. eexists. split; [reflexivity|].
    assert (bshas (bsdel (pred bj) i) k = true). { rewrite has_del, P. cbn. apply negb_true_iff, Nat.eqb_neq. congruence. }
    destruct (j =? i); cbn [setpred setsucc pred]; auto.
Qed.

Lemma set_same g i b : blk g i = Some b -> set_blk g i (Some b) = g.
Proof. intros H. unfold set_blk. rewrite <- H. apply upd_same. Qed.

Lemma trimdead_J g i : J g -> J (trimdead noret g i) /\ (blk g i = None -> trimdead noret g i = g) /\
  (forall j, blk (trimdead noret g i) j = None <-> blk g j = None).
Proof.
  intros HJ. unfold trimdead. destruct (blk g i) as [b|] eqn:Hb; [|split; [auto|split; [auto|reflexivity]]].
  assert (HJ' := HJ). destruct HJ' as (L & J1 & J2 & J3 & J4 & J5). destruct (J1 i b Hb) as (b0 & Hb0 & En).
  destruct (trimpos noret (nl b)) as [k d] eqn:T.
  assert (k = length (nl b)) by (pose proof (G_trim i b0 Hb0) as G; rewrite <- En, T in G; exact G). subst k.
  destruct d.
  - destruct (noexit_spec g i b HJ Hb) as [NL NB]. rewrite NB, Hb. cbn [option_map]. rewrite Nat.eqb_refl.
    cbn [setpred setsucc nl lbls pred succ]. rewrite firstn_all.
    assert (Ei : blk (noexit g i) i = Some (mkBb (nl b) (lbls b) (bsdel (pred b) i) 0%N)).
    { rewrite NB, Hb. cbn [option_map]. rewrite Nat.eqb_refl. reflexivity. }
    rewrite (set_same _ _ _ Ei). split; [|split; [discriminate|]].
    + eapply noexit_J; eauto. exists b0. split; auto. now rewrite <- En, T.
    + intros j. rewrite NB. destruct (blk g j); cbn; split; congruence.
  - rewrite Hb, firstn_all. destruct b as [n0 l0 p0 s0]. cbn [nl lbls pred succ]. rewrite (set_same _ _ _ Hb). split; [auto|split; [auto|reflexivity]].
Qed.

Lemma delete_J g i b : J g -> blk g i = Some b -> i <> 0 -> pred b = 0%N -> J (delete g i) /\ ~ live i /\
  blk (delete g i) i = None /\ (forall j, j <> i -> blk (delete g i) j = None <-> blk g j = None).
Proof.
  intros HJ Hb Hi Hp. assert (HJ' := HJ). destruct HJ' as (L & J1 & J2 & J3 & J4 & J5).
  assert (NL : ~ live i).
  { intros H. destruct H as [|k j Hk Hd He]; [congruence|]. pose proof (J3 k j b Hk Hd He Hb) as P. rewrite Hp, has_0 in P. discriminate. }
  unfold delete. rewrite Hb, Hp.
  assert (M0 : members (length g) 0%N = []). { unfold members. induction (seq 0 (length g)) as [|x l IH]; auto. }
  rewrite M0. cbn [fold_left].
  destruct (fold_map_pred (fun s => bsdel (bsunion s 0%N) i) (members (length g) (succ b)) g (members_nodup _ _)) as [F1 F2].
  set (g1 := fold_left _ _ g) in *.
  assert (B : forall j, blk (set_blk g1 i None) j = if j =? i then None else option_map (fun x => setpred x (fun s => bsdel s i)) (blk g j)).
  { intros j. rewrite blk_set by (rewrite F1; eapply blk_lt; eauto). destruct (Nat.eqb_spec j i) as [|Hne]; auto.
    rewrite F2, existsb_members. destruct (blk g j) as [x|] eqn:Hj; [|now destruct (_ && _)]. cbn [option_map].
    destruct (_ && _) eqn:E.
    - unfold setpred, bsunion. now rewrite N.lor_0_r.
    - destruct x as [n0 l0 p0 s0]. unfold setpred. cbn [nl lbls pred succ]. f_equal. f_equal. apply bset_ext. intros q. rewrite has_del.
      destruct (Nat.eqb_spec i q) as [<-|]; [|now rewrite andb_true_r]. rewrite andb_false_r.
      destruct (bshas p0 i) eqn:P; auto. exfalso. destruct (J4 i j _ Hj P) as [_ (bi & Hbi & S)]. assert (bi = b) by congruence. subst bi.
      rewrite S, andb_true_r in E. apply Nat.ltb_ge in E. apply blk_lt in Hj. lia. }
  split; [|split; [auto|split; [rewrite B, Nat.eqb_refl; auto|]]].
  2:{ intros j Hj. rewrite B. apply Nat.eqb_neq in Hj. rewrite Hj. destruct (blk g j); cbn; split; congruence. }
  repeat split.
  - rewrite set_length. lia.
  - intros j x Hx. rewrite B in Hx. destruct (j =? i); [discriminate|]. destruct (blk g j) as [y|] eqn:Hj; [|discriminate]. cbn in Hx. inversion Hx; subst.
    now apply (J1 j y).
  - intros j Hj. destruct (J2 j Hj) as (y & Hy). rewrite B. destruct (Nat.eqb_spec j i) as [->|]; [contradiction|]. rewrite Hy. cbn. eauto.
  - intros k j x Hk Hd He Hx. rewrite B in Hx. destruct (j =? i); [discriminate|]. destruct (blk g j) as [y|] eqn:Hj; [|discriminate]. cbn in Hx. inversion Hx; subst.
    cbn [setpred pred]. rewrite has_del, (J3 k j y Hk Hd He Hj). cbn. apply negb_true_iff, Nat.eqb_neq. intros <-. contradiction.
  - rewrite B in H. destruct (j =? i); [discriminate|]. destruct (blk g j) as [y|] eqn:Hj; [|discriminate]. cbn in H. inversion H; subst.
    cbn [setpred pred] in H0. rewrite has_del in H0. apply andb_true_iff in H0 as [H0 _]. now apply (J4 i0 j y).
  - rewrite B in H. destruct (j =? i); [discriminate|]. destruct (blk g j) as [y|] eqn:Hj; [|discriminate]. cbn in H. inversion H; subst.
    cbn [setpred pred] in H0. rewrite has_del in H0. apply andb_true_iff in H0 as [H0 Q]. apply negb_true_iff, Nat.eqb_neq in Q.
    destruct (J4 i0 j y Hj H0) as [_ (bi & Hbi & S)]. rewrite B. destruct (Nat.eqb_spec i0 i); [congruence|]. rewrite Hbi. cbn. eexists. split; [reflexivity|]. exact S.
  - intros k j x Hx Hs. rewrite B in Hx. destruct (Nat.eqb_spec k i) as [|Hki]; [discriminate|]. destruct (blk g k) as [y|] eqn:Hk; [|discriminate]. cbn in Hx. inversion Hx; subst.
    cbn [setpred succ] in Hs. destruct (J5 k j y Hk Hs) as (bj & Hbj & P).
    rewrite B. destruct (Nat.eqb_spec j i) as [->|].
    + exfalso. assert (bj = b) by congruence. subst bj. rewrite Hp, has_0 in P. discriminate.
    + rewrite Hbj. cbn. eexists. split; [reflexivity|]. cbn [setpred pred]. rewrite has_del, P. cbn. apply negb_true_iff, Nat.eqb_neq. congruence.
Qed.

Definition alive (g : cfg) : nat := length (filter (fun b => match b with Some _ => true | None => false end) g).

Lemma alive_le g h : length g = length h -> (forall j, blk g j = None -> blk h j = None) -> alive h <= alive g.
Proof.
  unfold alive. revert h. induction g as [|x g IH]; intros [|y h] L H; cbn in *; auto; try lia.
  assert (length (filter (fun b => match b with Some _ => true | None => false end) h) <= length (filter (fun b => match b with Some _ => true | None => false end) g)).
  { apply IH; [lia|]. intros j. apply (H (S j)). }
  specialize (H 0). cbn in H. destruct x, y; cbn; try lia. discriminate (H eq_refl).
Qed.
Lemma alive_lt g h i : length g = length h -> (forall j, blk g j = None -> blk h j = None) -> blk g i <> None -> blk h i = None -> alive h < alive g.
Proof.
  revert h i. induction g as [|x g IH]; intros [|y h] i L H H1 H2; cbn in L; try lia.
  - exfalso. apply H1. unfold blk. now destruct i.
  - assert (Hle : alive h <= alive g) by (apply alive_le; [lia|intros j; apply (H (S j))]).
    destruct i as [|i]; cbn in H1, H2.
    + subst y. unfold alive in *. cbn. destruct x; [cbn; lia|congruence].
    + assert (Hlt : alive h < alive g) by (apply (IH h i); auto; intros j; apply (H (S j))). specialize (H 0). unfold alive in *. cbn in *.
      destruct x, y; cbn; try lia. discriminate (H eq_refl).
Qed.

Lemma trim1_J g dl i g' dl' : J g -> trim1 noret post (g, dl) i = (g', dl') ->
  J g' /\ (forall j, blk g j = None -> blk g' j = None) /\ (dl' = dl \/ alive g' < alive g) /\ (forall j, j = 0 \/ j = post -> blk g' j = None <-> blk g j = None).
Proof.
  intros HJ. unfold trim1. destruct (_ || _) eqn:Q.
  - intros E; inversion E; subst. split; auto. split; auto. split; auto. reflexivity.
  - apply orb_false_iff in Q as [Q1 Q2]. apply Nat.eqb_neq in Q1, Q2.
    destruct (trimdead_J g i HJ) as (J1 & _ & N1). set (h := trimdead noret g i) in *.
    destruct (blk h i) as [b|] eqn:Hb.
    + destruct (bseq (pred b) 0%N) eqn:P.
      * apply N.eqb_eq in P. destruct (delete_J h i b J1 Hb Q1 P) as (J2 & _ & D1 & D2).
        intros E; inversion E; subst. split; auto. split; [|split].
        -- intros j Hj. destruct (Nat.eq_dec j i) as [->|]; auto. apply D2; auto. now apply N1.
        -- right. assert (Lg : length g = length g0) by apply HJ. assert (Ld : length (delete h i) = length g0) by apply J2. apply (alive_lt g (delete h i) i); [congruence| | |auto].
           ++ intros j Hj. destruct (Nat.eq_dec j i) as [->|]; auto. apply D2; auto. now apply N1.
           ++ intros Hg. apply N1 in Hg. congruence.
        -- intros j Hj. rewrite D2 by (destruct Hj; congruence). apply N1.
      * intros E; inversion E; subst. split; auto. split; [intros j; apply N1|]. split; [auto|]. intros; apply N1.
    + intros E; inversion E; subst. split; auto. split; [intros j; apply N1|]. split; [auto|]. intros; apply N1.
Qed.

Lemma trimpass_J l : forall g dl g' dl', J g -> fold_left (trim1 noret post) l (g, dl) = (g', dl') ->
  J g' /\ (forall j, blk g j = None -> blk g' j = None) /\ (dl' = dl \/ alive g' < alive g) /\ (forall j, j = 0 \/ j = post -> blk g' j = None <-> blk g j = None).
Proof.
  induction l as [|x l IH]; intros g dl g' dl' HJ; cbn [fold_left]; intros E.
  - inversion E; subst. split; auto. split; auto. split; auto. reflexivity.
  - destruct (trim1 noret post (g, dl) x) as [g1 d1] eqn:E1. destruct (trim1_J _ _ _ _ _ HJ E1) as (J1 & N1 & A1 & P1).
    destruct (IH _ _ _ _ J1 E) as (J2 & N2 & A2 & P2). split; auto. split; [auto|]. split.
    + assert (alive g1 <= alive g). { assert (La : length g = length g0) by apply HJ. assert (Lb : length g1 = length g0) by apply J1. apply alive_le; [congruence|exact N1]. }
      assert (alive g' <= alive g1). { assert (La : length g1 = length g0) by apply J1. assert (Lb : length g' = length g0) by apply J2. apply alive_le; [congruence|exact N2]. }
      destruct A1 as [->|A1], A2 as [->|A2]; auto; right; lia.
    + intros j Hj. now rewrite P2, P1.
Qed.

Lemma trim_J fuel : forall g g', J g -> trim fuel noret post g = Some g' -> J g' /\ (forall j, j = 0 \/ j = post -> blk g' j = None <-> blk g j = None).
Proof.
  induction fuel as [|fuel IH]; intros g g' HJ; [discriminate|]. cbn [trim].
  destruct (fold_left _ _ _) as [g1 d1] eqn:E. destruct (trimpass_J _ _ _ _ _ HJ E) as (J1 & _ & _ & P1). destruct d1.
  - intros T. destruct (IH _ _ J1 T) as [J2 P2]. split; auto. intros j Hj. now rewrite P2, P1.
  - intros Q; inversion Q; subst; auto.
Qed.
Lemma trim_terminates fuel : forall g, J g -> alive g < fuel -> exists g', trim fuel noret post g = Some g'.
Proof.
  induction fuel as [|fuel IH]; intros g HJ Hf; [lia|]. cbn [trim].
  destruct (fold_left _ _ _) as [g1 d1] eqn:E. destruct (trimpass_J _ _ _ _ _ HJ E) as (J1 & _ & A1 & _). destruct d1; [|eauto].
  apply IH; auto. destruct A1; [discriminate|lia].
Qed.
End Trim.
End B.
