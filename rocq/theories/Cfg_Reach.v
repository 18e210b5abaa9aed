(* Proofs about reaching definitions and the use-before-definition check. *)
From Verif Require Import Base Cfg_Model Cfg_Spec.

(* --- sets --- *)
Lemma of_nat_eqb a b : N.eqb (N.of_nat a) (N.of_nat b) = (a =? b).
Proof. destruct (N.eqb_spec (N.of_nat a) (N.of_nat b)), (Nat.eqb_spec a b); auto; lia. Qed.
Lemma has_put s i j : bshas (bsput s i) j = (i =? j) || bshas s j.
Proof. unfold bshas, bsput. now rewrite N.setbit_eqb, of_nat_eqb. Qed.
Lemma has_del s i j : bshas (bsdel s i) j = bshas s j && negb (i =? j).
Proof. unfold bshas, bsdel. now rewrite N.clearbit_eqb, of_nat_eqb. Qed.
Lemma has_union a b j : bshas (bsunion a b) j = bshas a j || bshas b j.
Proof. apply N.lor_spec. Qed.
Lemma has_diff a b j : bshas (bsdiff a b) j = bshas a j && negb (bshas b j).
Proof. apply N.ldiff_spec. Qed.
Lemma has_0 j : bshas 0%N j = false.
Proof. apply N.bits_0. Qed.
Lemma bset_ext a b : (forall j, bshas a j = bshas b j) -> a = b.
Proof. intros H. apply N.bits_inj. intros n. specialize (H (N.to_nat n)). unfold bshas in H. now rewrite N2Nat.id in H. Qed.
Lemma bset_ext_iff a b : (forall j, bshas a j = true <-> bshas b j = true) -> a = b.
Proof. intros H. apply bset_ext. intros j. specialize (H j). destruct (bshas a j), (bshas b j); intuition congruence. Qed.
Lemma in_members n s i : In i (members n s) <-> i < n /\ bshas s i = true.
Proof. unfold members. rewrite filter_In, in_seq. intuition lia. Qed.

Definition sub (a b : bset) := forall j, bshas a j = true -> bshas b j = true.

(* --- assignments --- *)
Lemma assigns_iff s v : Assigns s v <-> exists n, assignee s = Some n /\ eop n = Ovar /\ edid n = v.
Proof.
  split.
  - intros H. inversion H as [o i d a j v' vi va vj vargs rest Ho|o i d a j ai ad aa aj v' vi va vj vargs ar r Ho]; subst.
    + exists (Ex Ovar vi v va vj vargs). cbn in Ho. repeat (destruct Ho as [<-|Ho]; [cbn; auto|]). destruct Ho.
    + exists (Ex Ovar vi v va vj vargs). cbn in Ho. repeat (destruct Ho as [<-|Ho]; [cbn; auto|]). destruct Ho.
  - intros (n & E & On & D). destruct s as [o i d a j args].
    assert (Dir : hd_error args = Some n -> In o [Oundef; Odef; Oset; Oasn; Oaddeq; Osubeq; Omuleq; Odiveq; Omodeq;
          Oboreq; Obandeq; Obxoreq; Obsleq; Obsreq] -> Assigns (Ex o i d a j args) v).
    { intros Hh Ho. destruct args as [|x rest]; cbn in Hh; inversion Hh; subst x.
      destruct n as [no ni nd na nj nargs]. cbn in On, D. subst. now apply as_direct. }
    assert (Bl : match args with
      | a :: _ => match eop a with Oaddr => match eargs a with x :: _ => if isvar x then Some x else None | [] => None end | _ => None end
      | [] => None end = Some n -> In o [Oblit; Oclear] -> Assigns (Ex o i d a j args) v).
    { intros Hh Ho. destruct args as [|x rest]; [discriminate|]. destruct x as [xo xi xd xa xj xargs]. cbn in Hh.
      destruct xo; try discriminate. destruct xargs as [|y yr]; [discriminate|].
      destruct (isvar y) eqn:Ey; [|discriminate]. inversion Hh; subst y.
      destruct n as [no ni nd na nj nargs]. cbn in On, D. subst. now apply as_blit. }
    unfold assignee in E. cbn [eop eargs] in E.
    destruct o; try discriminate E; (apply Dir; [exact E|cbn; tauto]) || (apply Bl; [exact E|cbn; tauto]).
Qed.

Lemma assigns_dec s v : {Assigns s v} + {~ Assigns s v}.
Proof.
  destruct (assignee s) as [n|] eqn:E.
  - destruct (isvar n) eqn:V; [destruct (Nat.eq_dec (edid n) v)|].
    + left. apply assigns_iff. exists n. repeat split; auto. unfold isvar in V. destruct (eop n); congruence.
    + right. rewrite assigns_iff. intros (m & E' & _ & D). congruence.
    + right. rewrite assigns_iff. intros (m & E' & O & D). assert (m = n) by congruence. subst. unfold isvar in V. now rewrite O in V.
  - right. rewrite assigns_iff. intros (m & E' & _). congruence.
Qed.

Lemma isvar_true n : isvar n = true <-> eop n = Ovar.
Proof. unfold isvar. destruct (eop n); intuition congruence. Qed.

Lemma in_defs g v d : In d (defs g v) <-> exists s, In s (stmts g) /\ enid s = d /\ Assigns s v.
Proof.
  unfold defs. rewrite in_flat_map. split.
  - intros (s & Hs & Hd). destruct (assignee s) as [n|] eqn:E; [|destruct Hd].
    destruct (isvar n && (edid n =? v)) eqn:B; [|destruct Hd]. destruct Hd as [<-|[]].
    apply andb_true_iff in B as [B1 B2]. apply Nat.eqb_eq in B2.
    exists s. repeat split; auto. apply assigns_iff. exists n. apply isvar_true in B1. auto.
  - intros (s & Hs & Hd & Ha). apply assigns_iff in Ha as (n & E & O & D). exists s. split; auto.
    rewrite E. apply isvar_true in O. rewrite O. apply Nat.eqb_eq in D. rewrite D. now left.
Qed.

(* --- transfer functions --- *)
Definition flow (df : nat -> list nat) (X : bset) (s : expr) : bset :=
  match assignee s with
  | None => X
  | Some n => bsput (fold_left bsdel (df (edid n)) X) (enid s)
  end.

Lemma has_fold_del l : forall X j, bshas (fold_left bsdel l X) j = bshas X j && negb (existsb (Nat.eqb j) l).
Proof.
  induction l as [|x l IH]; intros X j; cbn [fold_left existsb]; [now rewrite andb_true_r|].
  rewrite IH, has_del, (Nat.eqb_sym x j). destruct (bshas X j), (j =? x), (existsb (Nat.eqb j) l); reflexivity.
Qed.
Lemma has_fold_put l : forall X j, bshas (fold_left bsput l X) j = bshas X j || existsb (Nat.eqb j) l.
Proof.
  induction l as [|x l IH]; intros X j; cbn [fold_left existsb]; [now rewrite orb_false_r|].
  rewrite IH, has_put, (Nat.eqb_sym x j). destruct (bshas X j), (j =? x), (existsb (Nat.eqb j) l); reflexivity.
Qed.
Lemma genkill1_split l : forall gk, fold_left (fun gk d => (bsdel (fst gk) d, bsput (snd gk) d)) l gk
  = (fold_left bsdel l (fst gk), fold_left bsput l (snd gk)).
Proof. induction l as [|x l IH]; intros [g k]; cbn [fold_left fst snd]; auto. now rewrite IH. Qed.

Definition app_gk (gk : bset * bset) (X : bset) : bset := bsunion (bsdiff X (snd gk)) (fst gk).

Lemma genkill1_flow df gk s X : app_gk (genkill1 df gk s) X = flow df (app_gk gk X) s.
Proof.
  unfold genkill1, flow. destruct (assignee s) as [n|]; auto.
  rewrite genkill1_split. destruct gk as [gen kill]. cbn [fst snd]. unfold app_gk. cbn [fst snd].
  apply bset_ext. intros j.
  rewrite has_union, has_diff, !has_put, has_del, has_fold_del, has_fold_put, has_fold_del, has_union, has_diff.
  destruct (enid s =? j), (bshas X j), (bshas kill j), (bshas gen j), (existsb (Nat.eqb j) (df (edid n))); reflexivity.
Qed.

Lemma genkill_flow df b X : app_gk (genkill df b) X = fold_left (flow df) (nl b) X.
Proof.
  unfold genkill. assert (H : forall l gk, app_gk (fold_left (genkill1 df) l gk) X = fold_left (flow df) l (app_gk gk X)).
  { induction l as [|s l IH]; intros gk; cbn [fold_left]; auto. rewrite IH. now rewrite genkill1_flow. }
  rewrite H. f_equal. unfold app_gk. cbn [fst snd]. apply bset_ext. intros j.
  rewrite has_union, has_diff, !has_0. now rewrite andb_true_r, orb_false_r.
Qed.

Lemma has_flow df X s d : bshas (flow df X s) d =
  match assignee s with
  | None => bshas X d
  | Some n => (enid s =? d) || (bshas X d && negb (existsb (Nat.eqb d) (df (edid n))))
  end.
Proof. unfold flow. destruct (assignee s); auto. now rewrite has_put, has_fold_del. Qed.

Lemma flow_mono df s X Y : sub X Y -> sub (flow df X s) (flow df Y s).
Proof.
  intros H j. rewrite !has_flow. destruct (assignee s); [|apply H]. specialize (H j).
  destruct (enid s =? j), (bshas X j), (bshas Y j), (existsb _ _); intuition.
Qed.
Lemma flows_mono df l : forall X Y, sub X Y -> sub (fold_left (flow df) l X) (fold_left (flow df) l Y).
Proof. induction l as [|s l IH]; intros X Y H; cbn [fold_left]; auto. apply IH. now apply flow_mono. Qed.

Definition unions (outs : list bset) (l : list nat) : bset := fold_left (fun acc j => bsunion acc (nth j outs 0%N)) l 0%N.
Lemma has_unions outs l j : bshas (unions outs l) j = existsb (fun i => bshas (nth i outs 0%N) j) l.
Proof.
  unfold unions. assert (H : forall l X, bshas (fold_left (fun acc j => bsunion acc (nth j outs 0%N)) l X) j
    = bshas X j || existsb (fun i => bshas (nth i outs 0%N) j) l).
  { induction l0 as [|x l0 IH]; intros X; cbn [fold_left existsb]; [now rewrite orb_false_r|].
    rewrite IH, has_union. now rewrite orb_assoc. }
  rewrite H, has_0. reflexivity.
Qed.

Definition newin (g : cfg) (outs : list bset) (b : bb) := unions outs (members (length g) (pred b)).

Lemma upd_block_eq g df ins outs ch i : upd_block g df (ins, outs, ch) i =
  match blk g i with
  | None => (ins, outs, ch)
  | Some b => let bi := newin g outs b in let bo := fold_left (flow df) (nl b) bi in
      if bseq (nth i outs 0%N) bo && bseq (nth i ins 0%N) bi then (ins, outs, ch)
      else (upd ins i bi, upd outs i bo, true)
  end.
Proof.
  unfold upd_block. destruct (blk g i) as [b|]; auto. pose proof (genkill_flow df b (newin g outs b)) as H.
  destruct (genkill df b) as [gen kill]. unfold app_gk in H. cbn [fst snd] in H.
  fold (unions outs (members (length g) (pred b))). fold (newin g outs b). rewrite H. cbv zeta.
  destruct (bseq (nth i outs 0%N) _), (bseq (nth i ins 0%N) _); reflexivity.
Qed.

(* --- the fixed point at exit --- *)
Definition stable g df ins outs i := forall b, blk g i = Some b ->
  nth i ins 0%N = newin g outs b /\ nth i outs 0%N = fold_left (flow df) (nl b) (nth i ins 0%N).

Lemma changed_stays g df l : forall ins outs, exists i o, fold_left (upd_block g df) l (ins, outs, true) = (i, o, true).
Proof.
  induction l as [|x l IH]; intros ins outs; cbn [fold_left]; eauto.
  rewrite upd_block_eq. destruct (blk g x); auto. cbv zeta. destruct (_ && _); auto.
Qed.

Lemma pass_unchanged g df l : forall ins outs i o, fold_left (upd_block g df) l (ins, outs, false) = (i, o, false) ->
  i = ins /\ o = outs /\ forall x, In x l -> stable g df ins outs x.
Proof.
  induction l as [|x l IH]; intros ins outs i o; cbn [fold_left]; intros E.
  - inversion E; subst. split; [auto|split; auto]. intros ? [].
  - rewrite upd_block_eq in E. destruct (blk g x) as [b|] eqn:B.
    + cbv zeta in E. destruct (_ && _) eqn:Q.
      * apply IH in E as (-> & -> & H). split; [auto|split; auto]. intros y [<-|Hy]; [|auto].
        intros b' Hb. assert (b' = b) by congruence. subst b'.
        apply andb_true_iff in Q as [Q1 Q2]. apply N.eqb_eq in Q1, Q2. split; [exact Q2|]. etransitivity; [exact Q1|]. f_equal. symmetry; exact Q2.
      * destruct (changed_stays g df l (upd ins x (newin g outs b)) (upd outs x (fold_left (flow df) (nl b) (newin g outs b)))) as (i' & o' & E'). congruence.
    + apply IH in E as (-> & -> & H). split; [auto|split; auto]. intros y [<-|Hy]; [|auto]. intros b' Hb. congruence.
Qed.

Lemma iterate_stable fuel g df : forall ins outs i o, iterate fuel g df ins outs = Some (i, o) ->
  forall x, stable g df i o x.
Proof.
  induction fuel as [|fuel IH]; intros ins outs i o; [discriminate|]. cbn [iterate]. unfold pass.
  destruct (fold_left _ _ _) as [[ins' outs'] ch] eqn:E. destruct ch; [apply IH|].
  intros E2. inversion E2; subst. apply pass_unchanged in E as (-> & -> & H). intros x b Hb.
  apply H; auto. apply in_seq. unfold blk in Hb. destruct (Nat.lt_ge_cases x (length g)); [lia|].
  rewrite nth_overflow in Hb by auto. discriminate.
Qed.

(* --- soundness --- *)
Section Graph.
Context (g : cfg).
Hypothesis Hnd : distinct_nodes g.
Hypothesis Hal : stores_dont_alias g.

Lemma stmt_at_in pt s : stmt_at g pt s -> In s (stmts g).
Proof.
  intros (b & Hb & Hs). unfold stmts. apply in_flat_map. exists (Some b). split.
  - unfold blk in Hb. rewrite <- Hb. apply nth_In. destruct (Nat.lt_ge_cases (fst pt) (length g)); auto.
    rewrite nth_overflow in Hb by auto. discriminate.
  - eapply nth_error_In; eauto.
Qed.

Lemma same_node s s' v : Assigns s v -> In s (stmts g) -> In s' (stmts g) -> enid s = enid s' -> s = s'.
Proof. intros A H1 H2 E. exact (Hnd s s' v H1 H2 A E). Qed.

(* the effect of a statement on a definition d of v *)
Lemma flow_def X s d v : In s (stmts g) -> In d (defs g v) ->
  bshas (flow (defs g) X s) d = true <-> (enid s = d) \/ (bshas X d = true /\ ~ Assigns s v).
Proof.
  intros Hs Hd. apply in_defs in Hd as (s0 & H0 & E0 & A0). rewrite has_flow.
  destruct (assignee s) as [n|] eqn:E.
  - rewrite orb_true_iff, Nat.eqb_eq, andb_true_iff, negb_true_iff.
    assert (K : existsb (Nat.eqb d) (defs g (edid n)) = true <-> Assigns s v).
    { rewrite existsb_exists. split.
      - intros (d' & Hd' & Ed). apply Nat.eqb_eq in Ed. subst d'. apply in_defs in Hd' as (s1 & H1 & E1 & A1).
        assert (s1 = s0) by (apply (same_node s1 s0 (edid n)); congruence). subst s1.
        destruct (isvar n) eqn:V.
        + apply isvar_true in V. apply assigns_iff. exists n. repeat split; auto.
          apply assigns_iff in A0 as (m0 & M0 & _ & <-). apply assigns_iff in A1 as (m1 & M1 & _ & D1). congruence.
        + exfalso. eapply (Hal s n Hs E); [|exact H0|exact A1]. intros Q. apply isvar_true in Q. congruence.
      - intros A. apply assigns_iff in A as (m & Em & _ & Dm). assert (m = n) by congruence. subst m.
        exists d. split; [|apply Nat.eqb_refl]. apply in_defs. exists s0. rewrite Dm. auto. }
    destruct (existsb _ _); intuition; discriminate.
  - assert (~ Assigns s v). { rewrite assigns_iff. intros (m & Em & _). congruence. }
    split; auto. intros [<-|[H1 _]]; auto. exfalso.
    assert (s0 = s) by (apply (same_node s0 s v); auto). subst s0. contradiction.
Qed.

Context (ins outs : list bset).
Hypothesis Hst : forall i, stable g (defs g) ins outs i.
Hypothesis Hlen : length outs = length g.

Definition at_point (pt : point) : bset :=
  match blk g (fst pt) with
  | Some b => fold_left (flow (defs g)) (firstn (snd pt) (nl b)) (nth (fst pt) ins 0%N)
  | None => 0%N
  end.

Lemma firstn_S_nth (A : Type) (l : list A) k x : nth_error l k = Some x -> firstn (S k) l = firstn k l ++ [x].
Proof.
  revert k; induction l as [|y l IH]; intros [|k] E; cbn in E; try discriminate.
  - now inversion E.
  - cbn [firstn app]. f_equal. now apply IH.
Qed.

Lemma at_point_S i k s : stmt_at g (i, k) s -> at_point (i, S k) = flow (defs g) (at_point (i, k)) s.
Proof.
  intros (b & Hb & Hs). unfold at_point. cbn [fst snd] in *. rewrite Hb.
  rewrite (firstn_S_nth _ _ _ _ Hs), fold_left_app. reflexivity.
Qed.

Lemma at_point_end i b : blk g i = Some b -> at_point (i, length (nl b)) = nth i outs 0%N.
Proof.
  intros Hb. unfold at_point. cbn [fst snd]. rewrite Hb, firstn_all. symmetry. now apply Hst.
Qed.

Lemma blk_lt i b : blk g i = Some b -> i < length g.
Proof. unfold blk. intros H. destruct (Nat.lt_ge_cases i (length g)); auto. rewrite nth_overflow in H by auto. discriminate. Qed.

Lemma reaches_sound d v pt : Reaches g d v pt -> In d (defs g v) /\ bshas (at_point pt) d = true.
Proof.
  induction 1 as [i k s Hs Hd Ha | i k s H [IHd IH] Hs Hna | i j b H [IHd IH] Hb (bi & bj & Hi & Hj & Hp)].
  - assert (D : In d (defs g v)) by (apply in_defs; exists s; repeat split; auto; eapply stmt_at_in; eauto).
    split; auto. rewrite (at_point_S _ _ _ Hs). apply (flow_def _ s d v); auto. eapply stmt_at_in; eauto.
  - split; auto. rewrite (at_point_S _ _ _ Hs). apply (flow_def _ s d v); auto. eapply stmt_at_in; eauto.
  - split; auto. unfold at_point. cbn [fst snd]. rewrite Hj. cbn [firstn fold_left].
    destruct (Hst j bj Hj) as [E _]. rewrite E. unfold newin. rewrite has_unions. apply existsb_exists.
    exists i. split.
    + apply in_members. split; auto. eapply blk_lt; eauto.
    + rewrite (at_point_end _ _ Hb) in IH. exact IH.
Qed.
End Graph.

(* --- exactness: everything in the sets really reaches --- *)
Section Exact.
Context (g : cfg).
Hypothesis Hnd : distinct_nodes g.
Hypothesis Hal : stores_dont_alias g.

Definition exact_sets (ins outs : list bset) : Prop :=
  (forall i d v, In d (defs g v) -> bshas (nth i ins 0%N) d = true -> Reaches g d v (i, 0)) /\
  (forall i d v, In d (defs g v) -> bshas (nth i outs 0%N) d = true ->
     exists b, blk g i = Some b /\ Reaches g d v (i, length (nl b))).

Lemma flows_exact i b X : blk g i = Some b ->
  (forall d v, In d (defs g v) -> bshas X d = true -> Reaches g d v (i, 0)) ->
  forall k d v, k <= length (nl b) -> In d (defs g v) ->
  bshas (fold_left (flow (defs g)) (firstn k (nl b)) X) d = true -> Reaches g d v (i, k).
Proof.
  intros Hb HX. induction k as [|k IH]; intros d v Hk Hd H.
  - apply HX; auto.
  - destruct (nth_error (nl b) k) as [s|] eqn:Es; [|apply nth_error_None in Es; lia].
    rewrite (firstn_S_nth _ _ _ _ Es), fold_left_app in H. cbn [fold_left] in H.
    assert (Hat : stmt_at g (i, k) s) by (exists b; auto).
    assert (Hin := stmt_at_in g _ _ Hat).
    apply (flow_def g Hnd Hal _ s d v Hin Hd) in H as [E|[H1 H2]].
    + apply in_defs in Hd as (s0 & H0 & E0 & A0). assert (s0 = s) by (apply (same_node g Hnd s0 s v); congruence). subst s0.
      eapply re_def; eauto.
    + eapply re_stmt; eauto. apply IH; auto. lia.
Qed.

Lemma nth_upd_any (A : Type) (l : list A) i j x d : nth i (upd l j x) d = if (i =? j) && (j <? length l) then x else nth i l d.
Proof.
  destruct (Nat.ltb_spec j (length l)).
  - rewrite andb_true_r. destruct (Nat.eqb_spec i j) as [->|Hn]; [now apply nth_upd_same|apply nth_upd_other; congruence].
  - rewrite andb_false_r. now rewrite upd_oob.
Qed.

Lemma upd_block_exact ins outs ch i ins' outs' ch' :
  exact_sets ins outs -> upd_block g (defs g) (ins, outs, ch) i = (ins', outs', ch') -> exact_sets ins' outs'.
Proof.
  intros [Hi Ho]. rewrite upd_block_eq. destruct (blk g i) as [b|] eqn:Hb; [|intros E; inversion E; subst; split; auto].
  cbv zeta. destruct (_ && _); [intros E; inversion E; subst; split; auto|]. intros E. inversion E; subst. clear E.
  assert (Hin : forall d v, In d (defs g v) -> bshas (newin g outs b) d = true -> Reaches g d v (i, 0)).
  { intros d v Hd H. unfold newin in H. rewrite has_unions in H. apply existsb_exists in H as (p & Hp & H).
    apply in_members in Hp as [Hp1 Hp2]. destruct (Ho p d v Hd H) as (bp & Hbp & HR).
    eapply re_edge; eauto. exists bp, b. auto. }
  split.
  - intros j d v Hd H. rewrite nth_upd_any in H. destruct (_ && _) eqn:Q; [|eauto].
    apply andb_true_iff in Q as [Q _]. apply Nat.eqb_eq in Q. subst j. auto.
  - intros j d v Hd H. rewrite nth_upd_any in H. destruct (_ && _) eqn:Q; [|eauto].
    apply andb_true_iff in Q as [Q _]. apply Nat.eqb_eq in Q. subst j. exists b. split; auto.
    apply (flows_exact i b _ Hb Hin); auto. now rewrite firstn_all.
Qed.

Lemma fold_exact l : forall ins outs ch ins' outs' ch', exact_sets ins outs ->
  fold_left (upd_block g (defs g)) l (ins, outs, ch) = (ins', outs', ch') -> exact_sets ins' outs'.
Proof.
  induction l as [|x l IH]; intros ins outs ch ins' outs' ch' H; cbn [fold_left]; intros E.
  - inversion E; subst; auto.
  - destruct (upd_block g (defs g) (ins, outs, ch) x) as [[i1 o1] c1] eqn:E1. eapply IH; [|exact E]. eapply upd_block_exact; eauto.
Qed.

Lemma iterate_exact fuel : forall ins outs i o, exact_sets ins outs -> iterate fuel g (defs g) ins outs = Some (i, o) -> exact_sets i o.
Proof.
  induction fuel as [|fuel IH]; intros ins outs i o H; [discriminate|]. cbn [iterate]. unfold pass.
  destruct (fold_left _ _ _) as [[ins' outs'] ch] eqn:E. apply fold_exact in E; auto.
  destruct ch; [now apply IH|]. intros Q; inversion Q; subst; auto.
Qed.

Lemma nth_repeat0 i n : nth i (repeat 0%N n) 0%N = 0%N.
Proof. revert i; induction n as [|n IH]; intros [|i]; cbn; auto. Qed.

Lemma exact_init : exact_sets (repeat 0%N (length g)) (repeat 0%N (length g)).
Proof. split; intros i d v _ H; rewrite nth_repeat0, has_0 in H; discriminate. Qed.
End Exact.

(* --- termination --- *)
Section Term.
Context (g : cfg).
Let n := length g.
(* every node id is below m *)
Definition idbound : nat := S (list_max (map enid (stmts g))).
Definition card (s : bset) : nat := length (members idbound s).
Definition bounded (s : bset) := forall j, bshas s j = true -> j < idbound.
Definition total (l : list bset) : nat := fold_right (fun s n => card s + n) 0 l.

Lemma card_le s : card s <= idbound.
Proof.
  unfold card, members. rewrite <- (seq_length idbound 0) at 2. induction (seq 0 idbound) as [|x l IH]; cbn; auto.
  destruct (bshas s x); cbn; lia.
Qed.

Lemma filter_length_sub (A : Type) (f h : A -> bool) l : (forall x, In x l -> f x = true -> h x = true) -> length (filter f l) <= length (filter h l).
Proof.
  induction l as [|x l IH]; intros H; cbn; auto. assert (length (filter f l) <= length (filter h l)) by (apply IH; intros; apply H; [now right|auto]).
  destruct (f x) eqn:F; [rewrite (H x); auto; [|now left]|destruct (h x)]; cbn; lia.
Qed.
Lemma filter_length_lt (A : Type) (f h : A -> bool) l x : (forall x, In x l -> f x = true -> h x = true) -> In x l -> f x = false -> h x = true ->
  length (filter f l) < length (filter h l).
Proof.
  induction l as [|y l IH]; intros H Hin F G; [destruct Hin|].
  assert (L : length (filter f l) <= length (filter h l)) by (apply filter_length_sub; intros; apply H; [now right|auto]).
  destruct Hin as [->|Hin].
  - cbn. rewrite F, G. cbn. lia.
  - assert (length (filter f l) < length (filter h l)) by (apply IH; auto; intros; apply H; [now right|auto]).
    cbn. destruct (f y) eqn:Fy; [rewrite (H y); auto; [|now left]|destruct (h y)]; cbn; lia.
Qed.

Lemma card_sub a b : sub a b -> card a <= card b.
Proof. intros H. apply filter_length_sub. intros x _. apply H. Qed.
Lemma card_lt a b : sub a b -> bounded b -> bseq a b = false -> card a < card b.
Proof.
  intros H Hb Hne. assert (exists j, bshas a j = false /\ bshas b j = true) as (j & Ha & Hj).
  { destruct (existsb (fun j => negb (bshas a j) && bshas b j) (seq 0 idbound)) eqn:E.
    - apply existsb_exists in E as (j & _ & E). apply andb_true_iff in E as [E1 E2]. apply negb_true_iff in E1. eauto.
    - exfalso. apply N.eqb_neq in Hne. apply Hne. apply bset_ext_iff. intros j. split; [apply H|]. intros Hj.
      destruct (bshas a j) eqn:Ea; auto. exfalso.
      assert (existsb (fun j => negb (bshas a j) && bshas b j) (seq 0 idbound) = true); [|congruence].
      apply existsb_exists. exists j. rewrite in_seq, Ea, Hj. specialize (Hb j Hj). split; auto. lia. }
  apply (filter_length_lt _ _ _ _ j); [intros x _; apply H| |exact Ha|exact Hj].
  apply in_seq. specialize (Hb j Hj). lia.
Qed.

Lemma total_upd l i x : i < length l -> card (nth i l 0%N) <= card x -> total l <= total (upd l i x) /\
  (card (nth i l 0%N) < card x -> total l < total (upd l i x)).
Proof.
  unfold total. revert i; induction l as [|y l IH]; intros [|i] Hi H; cbn [upd nth fold_right length] in *; try lia.
  destruct (IH i ltac:(lia) H). lia.
Qed.

Definition mono_inv (ins outs : list bset) : Prop :=
  length ins = n /\ length outs = n /\
  (forall i, bounded (nth i ins 0%N)) /\ (forall i, bounded (nth i outs 0%N)) /\
  (forall i b, blk g i = Some b -> sub (nth i ins 0%N) (newin g outs b) /\
               sub (nth i outs 0%N) (fold_left (flow (defs g)) (nl b) (nth i ins 0%N))).

Lemma newin_mono outs outs' b : (forall i, sub (nth i outs 0%N) (nth i outs' 0%N)) -> sub (newin g outs b) (newin g outs' b).
Proof.
  intros H j. unfold newin. rewrite !has_unions, !existsb_exists. intros (x & Hx & E). exists x. split; auto. now apply H.
Qed.

Lemma flows_bounded b i X : blk g i = Some b -> bounded X -> bounded (fold_left (flow (defs g)) (nl b) X).
Proof.
  intros Hb HX. assert (Hin : forall s, In s (nl b) -> In s (stmts g)).
  { intros s Hs. apply In_nth_error in Hs as (k & Hk). apply (stmt_at_in g (i, k)). exists b; auto. }
  revert X HX Hin. clear Hb. induction (nl b) as [|s l IH]; intros X HX Hin; cbn [fold_left]; auto.
  apply IH; [|intros; apply Hin; now right]. intros j. rewrite has_flow. destruct (assignee s); [|apply HX].
  rewrite orb_true_iff, andb_true_iff, Nat.eqb_eq. intros [<-|[H _]]; [|auto].
  unfold idbound. apply Nat.lt_succ_r. assert (F := list_max_le (map enid (stmts g)) (list_max (map enid (stmts g)))).
  destruct F as [F _]. specialize (F (Nat.le_refl _)). rewrite Forall_forall in F. apply F. apply in_map. apply Hin. now left.
Qed.

Lemma newin_bounded outs b : (forall i, bounded (nth i outs 0%N)) -> bounded (newin g outs b).
Proof. intros H j. unfold newin. rewrite has_unions, existsb_exists. intros (x & _ & E). eapply H; eauto. Qed.

Lemma upd_block_mono ins outs ch i ins' outs' ch' : mono_inv ins outs -> upd_block g (defs g) (ins, outs, ch) i = (ins', outs', ch') ->
  mono_inv ins' outs' /\
  ((ins' = ins /\ outs' = outs /\ ch' = ch) \/ (ch' = true /\ total ins + total outs < total ins' + total outs')).
Proof.
  intros (Li & Lo & Bi & Bo & H). rewrite upd_block_eq. destruct (blk g i) as [b|] eqn:Hb.
  2:{ intros E; inversion E; subst. split; [repeat split; auto; now apply (H i0 b)|auto]. }
  cbv zeta. destruct (_ && _) eqn:Q.
  { intros E; inversion E; subst. split; [repeat split; auto; now apply (H i0 b0)|auto]. }
  intros E. inversion E; subst. clear E.
  assert (Hilt : i < n) by (eapply blk_lt; eauto).
  destruct (H i b Hb) as [H1 H2].
  set (bi := newin g outs b) in *. set (bo := fold_left (flow (defs g)) (nl b) bi) in *.
  assert (S2 : sub (nth i outs 0%N) bo). { intros j Hj. apply (flows_mono _ _ _ _ H1). now apply H2. }
  assert (BBi : bounded bi) by now apply newin_bounded.
  assert (BBo : bounded bo) by (eapply flows_bounded; eauto).
  assert (Sout : forall j, sub (nth j outs 0%N) (nth j (upd outs i bo) 0%N)).
  { intros j. rewrite nth_upd_any. destruct ((j =? i) && (i <? length outs)) eqn:J; [|intros k; auto]. apply andb_true_iff in J as [J _]. apply Nat.eqb_eq in J. subst j. exact S2. }
  split.
  - split; [now rewrite upd_length|]. split; [now rewrite upd_length|].
    split; [intros j; rewrite nth_upd_any; destruct ((j =? i) && (i <? length ins)); auto|].
    split; [intros j; rewrite nth_upd_any; destruct ((j =? i) && (i <? length outs)); auto|].
    intros j bj Hj. rewrite !nth_upd_any. rewrite Li, Lo. destruct (Nat.eqb_spec j i) as [->|Hne]; cbn [andb].
    + apply Nat.ltb_lt in Hilt as ->. assert (bj = b) by congruence. subst bj. split; [|intros k; auto].
      now apply newin_mono.
    + destruct (H j bj Hj) as [H3 H4]. split; auto. intros k Hk. apply (newin_mono outs); auto.
  - right. split; auto.
    destruct (total_upd ins i bi) as [T1 T2]; [lia|now apply card_sub|].
    destruct (total_upd outs i bo) as [T3 T4]; [lia|now apply card_sub|].
    apply andb_false_iff in Q as [Q|Q].
    + pose proof (card_lt _ _ S2 BBo Q). specialize (T4 H0). lia.
    + pose proof (card_lt _ _ H1 BBi Q). specialize (T2 H0). lia.
Qed.

Lemma fold_mono l : forall ins outs ch ins' outs' ch', mono_inv ins outs ->
  fold_left (upd_block g (defs g)) l (ins, outs, ch) = (ins', outs', ch') ->
  mono_inv ins' outs' /\ total ins + total outs <= total ins' + total outs' /\
  (ch = false -> ch' = true -> total ins + total outs < total ins' + total outs').
Proof.
  induction l as [|x l IH]; intros ins outs ch ins' outs' ch' H; cbn [fold_left]; intros E.
  - inversion E; subst. repeat split; try apply H; auto. congruence.
  - destruct (upd_block g (defs g) (ins, outs, ch) x) as [[i1 o1] c1] eqn:E1.
    destruct (upd_block_mono _ _ _ _ _ _ _ H E1) as [H1 D]. apply IH in E as (M & T & C); auto.
    split; auto. destruct D as [(-> & -> & ->)|[-> D]]; split; auto; try lia.
Qed.

Lemma total_le l : total l <= length l * idbound.
Proof.
  unfold total. induction l as [|x l IH]; cbn [fold_right length]; auto. pose proof (card_le x). lia.
Qed.

Lemma iterate_terminates : forall fuel ins outs, mono_inv ins outs ->
  2 * n * idbound < total ins + total outs + fuel -> exists i o, iterate fuel g (defs g) ins outs = Some (i, o).
Proof.
  induction fuel as [|fuel IH]; intros ins outs H Hf.
  - exfalso. destruct H as (L1 & L2 & _). pose proof (total_le ins). pose proof (total_le outs). rewrite L1, L2 in *. nia.
  - cbn [iterate]. unfold pass. destruct (fold_left _ _ _) as [[ins' outs'] ch] eqn:E.
    apply fold_mono in E as (M & T & C); auto. destruct ch; [|eauto].
    apply IH; auto. specialize (C eq_refl eq_refl). lia.
Qed.

Lemma mono_init : mono_inv (repeat 0%N n) (repeat 0%N n).
Proof.
  unfold mono_inv. rewrite repeat_length. repeat split; auto; try (intros i j; rewrite nth_repeat0, has_0; discriminate);
  intros j; rewrite nth_repeat0, has_0; discriminate.
Qed.
Lemma reaching_terminates fuel : 2 * length g * idbound < fuel -> exists r, reaching fuel g = Some r.
Proof.
  intros H. destruct (iterate_terminates fuel (repeat 0%N n) (repeat 0%N n) mono_init) as (i & o & E).
  - unfold n at 1. lia.
  - exists (i, o). exact E.
Qed.
End Term.
