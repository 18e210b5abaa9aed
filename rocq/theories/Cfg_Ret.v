(* The missing-return check is sound: what it accepts cannot fall off the end. *)
From Verif Require Import Base Cfg_Model Cfg_Spec Cfg_Reach Cfg_Build.

Lemma lookup_range l b : forall k j, lookup l k b = Some j -> k <= j < k + length b.
Proof.
  induction b as [|[es l0] b IH]; intros k j L; [discriminate|].
  cbn [lookup] in L. destruct (lookup l (S k) b) eqn:L2; [inversion L; subst; apply IH in L2; cbn [length]; lia|]. destruct (existsb _ _); inversion L; subst; cbn [length]; lia.
Qed.

Section R.
Context (noret : nat -> bool) (p : list item).
Hypothesis Hnd : nodecl p.
Hypothesis Hl : NoDup (labels p).
Let bs := build noret None [] [] p.
Let m := length bs.
Let post := S m.
Context (js : list (nat * nat)).
Hypothesis Hjs : jumpedges bs post 1 bs = Some js.
Let edges := (0, 1) :: (m, post) :: js.
Let g0 := mkgraph (([], []) :: bs ++ [([], [])]) edges.

Lemma ok_init : okstate None []. Proof. intros _. split; [auto|discriminate]. Qed.

Lemma shape : exists front last lls, bs = front ++ [(last, lls)] /\ plain noret last /\ Forall (fun b => closed noret (fst b)) front.
Proof. apply build_shape; [exact Hnd|exact ok_init|constructor]. Qed.

Lemma m_pos : 1 <= m.
Proof. unfold m. pose proof (build_nonnil noret None [] [] p). fold bs in H. destruct bs; [congruence|cbn; lia]. Qed.

Lemma blk0 i : blk g0 i = match nth_error (([], []) :: bs ++ [([], [])]) i with
  | Some (e, l) => Some (mkBb e l (mkset (map fst (filter (fun x => snd x =? i) edges))) (mkset (map snd (filter (fun x => fst x =? i) edges))))
  | None => None end.
Proof. apply blk_mkgraph. Qed.

Lemma blk0_mid i es ls : nth_error bs i = Some (es, ls) -> exists b, blk g0 (S i) = Some b /\ nl b = es /\
  (forall k, bshas (pred b) k = true <-> In (k, S i) edges).
Proof.
  intros E. rewrite blk0. cbn [nth_error]. rewrite nth_error_app1 by (apply nth_error_Some; congruence). rewrite E.
  eexists. split; [reflexivity|]. split; [reflexivity|]. intros k. cbn [pred]. apply pred_edges.
Qed.

Lemma blk0_inv i b : blk g0 i = Some b -> i <= post /\ (forall k, bshas (pred b) k = true <-> In (k, i) edges) /\ (forall k, bshas (succ b) k = true <-> In (i, k) edges) /\
  ((i = 0 /\ nl b = []) \/ (i = post /\ nl b = []) \/ exists i' es ls, i = S i' /\ nth_error bs i' = Some (es, ls) /\ nl b = es).
Proof.
  rewrite blk0. destruct (nth_error _ i) as [[e l]|] eqn:E; [|discriminate]. intros Q. injection Q as <-.
  assert (Li : i < length (([], []) :: bs ++ [([], [])])) by (apply nth_error_Some; congruence).
  cbn [length] in Li. rewrite app_length in Li. cbn [length] in Li. fold m in Li.
  split; [unfold post; lia|]. split; [intros k; exact (pred_edges edges k i)|]. split; [intros k; exact (succ_edges edges i k)|]. cbn [nl].
  destruct i as [|i]; [left; cbn in E; inversion E; auto|right]. cbn [nth_error] in E.
  destruct (Nat.lt_ge_cases i m).
  - right. rewrite nth_error_app1 in E by (fold m; lia). exists i, e, l. auto.
  - left. rewrite nth_error_app2 in E by (fold m; lia). fold m in E. assert (i = m) by lia. subst i. rewrite Nat.sub_diag in E. cbn in E. inversion E. auto.
Qed.

Lemma blk0_ex i : i <= post -> exists b, blk g0 i = Some b.
Proof.
  intros H. rewrite blk0. destruct (nth_error _ i) as [[e l]|] eqn:E; [eauto|]. apply nth_error_None in E. cbn [length] in E. rewrite app_length in E. cbn [length] in E. fold m in E. unfold post in H. lia.
Qed.

Lemma E0_iff i j : E0 g0 i j <-> In (i, j) edges /\ j <= post.
Proof.
  unfold E0. split.
  - intros (b & Hb & P). destruct (blk0_inv j b Hb) as (H1 & H2 & _). split; [now apply H2|auto].
  - intros [H1 H2]. destruct (blk0_ex j H2) as (b & Hb). exists b. split; auto. now apply (blk0_inv j b Hb).
Qed.

Lemma edges_src i j : In (i, j) edges -> i < post /\ i <= m.
Proof.
  pose proof m_pos. unfold post. intros [E|[E|E]]; [inversion E; lia|inversion E; lia|].
  apply (jumpedges_inv noret _ _ _ _ _ _ _ Hjs) in E as (i' & es & ls & ts & -> & H1 & _).
  assert (i' < m) by (apply nth_error_Some; congruence). lia.
Qed.

Lemma G_both : forall i j, E0 g0 i j -> exists bi, blk g0 i = Some bi /\ bshas (succ bi) j = true.
Proof.
  intros i j H. apply E0_iff in H as [H1 H2]. destruct (edges_src i j H1) as [H3 _]. destruct (blk0_ex i) as (b & Hb); [lia|].
  exists b. split; auto. now apply (blk0_inv i b Hb).
Qed.

Lemma mid_shape i es ls : nth_error bs i = Some (es, ls) -> (S i = m /\ plain noret es) \/ (S i < m /\ closed noret es).
Proof.
  intros E. destruct shape as (front & last & lls & Eb & Pl & Cl).
  assert (Lm : m = length front + 1) by (unfold m; rewrite Eb, app_length; reflexivity).
  destruct (Nat.lt_ge_cases i (length front)).
  - right. split; [lia|]. rewrite Eb, nth_error_app1 in E by auto. apply nth_error_In in E. rewrite Forall_forall in Cl. apply (Cl _ E).
  - left. assert (i < m) by (apply nth_error_Some; congruence). split; [lia|]. assert (i = length front) by lia. subst i.
    rewrite Eb, nth_error_app2, Nat.sub_diag in E by lia. cbn in E. inversion E; subst. auto.
Qed.

Lemma G_trim : forall i b, blk g0 i = Some b -> fst (trimpos noret (nl b)) = length (nl b).
Proof.
  intros i b Hb. destruct (blk0_inv i b Hb) as (_ & _ & _ & [[_ ->]|[[_ ->]|(i' & es & ls & _ & E & ->)]]); auto.
  destruct (mid_shape i' es ls E) as [[_ P]|[_ (pre & e & -> & P & En)]].
  - now rewrite (trimpos_plain noret es P).
  - now rewrite (trimpos_closed noret pre e P En).
Qed.

Lemma G_start : exists b, blk g0 0 = Some b. Proof. apply blk0_ex. lia. Qed.

Lemma J0 : J noret g0 g0.
Proof.
  split; [auto|]. split; [eauto|]. split; [intros i H; eapply live_blk; eauto; apply G_start|]. split.
  - intros i j b _ _ (b' & Hb' & P) Hb. congruence.
  - split.
    + intros i j b Hb P. assert (HE : E0 g0 i j) by (exists b; auto). split; auto. now apply G_both.
    + intros i j b Hb S. destruct (blk0_inv i b Hb) as (_ & _ & HS & _). apply HS in S.
      assert (Hj : j <= post).
      { destruct S as [E|[E|E]]; [inversion E; pose proof m_pos; unfold post; lia|inversion E; auto|].
        apply (jumpedges_inv noret _ _ _ _ _ _ _ Hjs) in E as (i' & es & ls & ts & _ & _ & T & Ht).
        apply (alltargets_inv _ _ _ _ _ T) in Ht as (e & te & _ & Te & Ht). unfold targets in Te.
        assert (LK : forall ls te, lookups ls bs = Some te -> In j te -> j <= post).
        { clear. intros ls. induction ls as [|x ls IH]; intros te E H; cbn [lookups] in E; [inversion E; subst; destruct H|].
          destruct (lookup x 1 bs) as [q|] eqn:L; [|discriminate]. destruct (lookups ls bs) as [qs|]; [|discriminate]. inversion E; subst.
          destruct H as [->|H]; [|eapply IH; eauto]. apply lookup_range in L. unfold post, m. lia. }
        destruct (eop e); try (inversion Te; subst; destruct Ht; fail); try (eapply LK; eauto; fail).
        inversion Te; subst. destruct Ht as [<-|[]]. lia. }
      destruct (blk0_ex j Hj) as (bj & Hbj). exists bj. split; auto. now apply (blk0_inv j bj Hbj).
Qed.

(* --- executions follow the graph --- *)
Lemma bs_labels : NoDup (flat_map snd bs).
Proof. unfold bs. rewrite build_labels. exact Hl. Qed.

Lemma jump_edge i es ls e l j : nth_error bs i = Some (es, ls) -> In e es -> eop e = Ojmp \/ eop e = Ocjmp -> In l (ejl e) ->
  lookup l 1 bs = Some j -> In (S i, j) edges.
Proof.
  intros E He Ho Hlb Lk. destruct (jumpedges_ok _ _ _ _ _ _ _ _ Hjs E) as (ts & T).
  destruct (alltargets_in _ _ _ _ _ T He) as (te & Te & Inc).
  assert (LK : lookups (ejl e) bs = Some te) by (unfold targets in Te; destruct Ho as [Ho|Ho]; rewrite Ho in Te; exact Te).
  destruct (lookups_in _ _ _ _ LK Hlb) as (j' & L' & Hj'). assert (j' = j) by congruence. subst j'.
  right. right. change (S i) with (1 + i). eapply (jumpedges_in noret); eauto.
Qed.

Lemma lookup_le l j : lookup l 1 bs = Some j -> 1 <= j <= m.
Proof.
  intros L. apply lookup_range in L. unfold m. lia.
Qed.

(* a block with a jump is not a dead end *)
Lemma jump_not_dead i es ls e n : nth_error bs i = Some (es, ls) -> nth_error es n = Some e -> eop e = Ojmp \/ eop e = Ocjmp -> ~ dead0 noret g0 (S i).
Proof.
  intros E He Ho (b & Hb & D). destruct (blk0_mid i es ls E) as (b' & Hb' & Hn & _). assert (b' = b) by congruence. subst b'. rewrite Hn in D.
  assert (En : endsblock noret e = true) by (unfold endsblock; destruct Ho as [->| ->]; reflexivity).
  destruct (mid_shape i es ls E) as [[_ P]|[_ (pre & e' & -> & P & En')]].
  - pose proof (plain_at noret es n e P He). congruence.
  - destruct (closed_at noret pre e' n e P He En) as [-> _]. rewrite (trimpos_closed noret pre e' P En') in D. cbn [snd] in D.
    unfold deadend in D. destruct Ho as [Ho|Ho]; rewrite Ho in D; discriminate.
Qed.

Lemma runs_live pc : Runs noret p pc -> exists i n, nth_error (locs noret None 0 1 p) pc = Some (S i, n) /\ i < m /\ live noret g0 (S i).
Proof.
  induction 1 as [|a b _ (i & n & L & Hi & Hv) S].
  - exists 0, 0. pose proof m_pos. split; [apply locs_hd|]. split; [lia|].
    eapply live_edge; [apply live0| |].
    + intros (b & Hb & D). destruct (blk0_inv 0 b Hb) as (_ & _ & _ & [[_ E]|[[E _]|(i' & es & ls & E & _)]]); [rewrite E in D; discriminate|discriminate|discriminate].
    + apply E0_iff. split; [now left|unfold post; lia].
  - destruct S as [pc E|pc l E|pc e l t E Ho Hlb Et|pc e E Hno Hnc].
    + exfalso. apply Hnd. eapply nth_error_In; eauto.
    + destruct (loc_lbl noret p None [] [] 1 pc l Hnd ok_init E) as (i1 & n1 & j & es & ls' & es' & ls'' & H1 & H2 & H3 & H4 & H5 & H6).
      cbn [length] in H1, H2. rewrite L in H1. inversion H1; subst i1 n1. fold bs in H3, H4. exists j, 0. split; [exact H2|].
      split; [apply nth_error_Some; congruence|]. destruct H6 as [<-|H6]; auto.
      eapply live_edge; [exact Hv| |].
      * eapply jump_not_dead; eauto.
      * assert (Lk : lookup l 1 bs = Some (S j)) by (apply (lookup_spec noret l bs 1 j es' ls''); auto; apply bs_labels).
        apply E0_iff. split; [|pose proof (lookup_le _ _ Lk); unfold post; lia].
        eapply jump_edge; eauto; [eapply nth_error_In; eauto|now left|now left].
    + destruct (loc_ex noret p None [] [] 1 pc e E) as (i1 & n1 & es & ls' & H1 & H2 & H3 & _). cbn [length] in H1. rewrite L in H1. inversion H1; subst i1 n1. fold bs in H2.
      destruct (loc_lbl noret p None [] [] 1 t l Hnd ok_init Et) as (i2 & n2 & j & es0 & ls0 & es' & ls'' & _ & G2 & _ & G4 & G5 & _).
      fold bs in G4. exists j, 0. split; [exact G2|]. split; [apply nth_error_Some; congruence|].
      assert (Ho' : eop e = Ojmp \/ eop e = Ocjmp) by (cbn in Ho; intuition).
      assert (Lk : lookup l 1 bs = Some (S j)) by (apply (lookup_spec noret l bs 1 j es' ls''); auto; apply bs_labels).
      eapply live_edge; [exact Hv|eapply jump_not_dead; eauto|].
      apply E0_iff. split; [|pose proof (lookup_le _ _ Lk); unfold post; lia].
      eapply jump_edge; eauto. eapply nth_error_In; eauto.
    + destruct (loc_ex noret p None [] [] 1 pc e E) as (i1 & n1 & es & ls' & H1 & H2 & H3 & H4). cbn [length] in H1, H4. rewrite L in H1. inversion H1; subst i1 n1.
      exists i, (S n). split; [|auto]. apply H4. unfold endsblock. cbn in Hno. destruct (eop e); auto; try (exfalso; tauto).
      destruct (isnonretcall noret e); auto. exfalso. apply Hnc. auto.
Qed.

(* location of a program counter *)
Definition loc (pc : nat) : point := nth pc (locs noret None 0 1 p) (0, 0).
Lemma loc_nth pc x : nth_error (locs noret None 0 1 p) pc = Some x -> loc pc = x.
Proof. intros H. unfold loc. now apply nth_error_nth. Qed.

Lemma covers g : J noret g0 g ->
  (forall pc e, Runs noret p pc -> nth_error p pc = Some (IEx e) -> stmt_at g (loc pc) e) /\
  (forall a b, Runs noret p a -> Step noret p a b ->
     ((exists l, nth_error p a = Some (ILbl l)) /\ loc b = loc a) \/
     ((exists e, nth_error p a = Some (IEx e)) /\ loc b = (fst (loc a), S (snd (loc a)))) \/
     (edge g (fst (loc a)) (fst (loc b)) /\ snd (loc b) = 0 /\
      exists x s, blk g (fst (loc a)) = Some x /\ nth_error (nl x) (snd (loc a)) = Some s /\ length (nl x) = S (snd (loc a)) /\
                  (eop s = Ojmp \/ eop s = Ocjmp))).
Proof.
  intros (L & J1 & J2 & J3 & J4 & J5).
  assert (Blk : forall i es ls, nth_error bs i = Some (es, ls) -> live noret g0 (S i) -> exists x, blk g (S i) = Some x /\ nl x = es).
  { intros i es ls E Hv. destruct (J2 _ Hv) as (x & Hx). exists x. split; auto. destruct (J1 _ _ Hx) as (b0 & Hb0 & ->).
    destruct (blk0_mid i es ls E) as (b1 & Hb1 & Nb & _). congruence. }
  assert (Jmp : forall i es ls n e l j, nth_error bs i = Some (es, ls) -> live noret g0 (S i) -> nth_error es n = Some e -> eop e = Ojmp \/ eop e = Ocjmp ->
     In l (ejl e) -> lookup l 1 bs = Some j ->
     edge g (S i) j /\ exists x s, blk g (S i) = Some x /\ nth_error (nl x) n = Some s /\ length (nl x) = S n /\ (eop s = Ojmp \/ eop s = Ocjmp)).
  { intros i es ls n e l j E Hv He Ho Hlb Lk. destruct (Blk i es ls E Hv) as (x & Hx & Nx).
    assert (ND := jump_not_dead i es ls e n E He Ho).
    assert (EE : E0 g0 (S i) j). { apply E0_iff. split; [|pose proof (lookup_le _ _ Lk); unfold post; lia]. eapply jump_edge; eauto. eapply nth_error_In; eauto. }
    assert (Hvj : live noret g0 j) by (eapply live_edge; eauto).
    destruct (J2 j Hvj) as (bj & Hbj). split; [exists x, bj; repeat split; auto; eapply J3; eauto|].
    exists x, e. rewrite Nx. repeat split; auto.
    assert (En : endsblock noret e = true) by (unfold endsblock; destruct Ho as [->| ->]; reflexivity).
    destruct (mid_shape i es ls E) as [[_ P]|[_ (pre & e' & -> & P & En')]].
    - pose proof (plain_at noret es n e P He). congruence.
    - destruct (closed_at noret pre e' n e P He En) as [_ ->]. rewrite app_length. cbn. lia. }
  split.
  - intros pc e Hr E. destruct (runs_live pc Hr) as (i & n & Lc & Hi & Hv).
    destruct (loc_ex noret p None [] [] 1 pc e E) as (i1 & n1 & es & ls' & H1 & H2 & H3 & _). cbn [length] in H1. rewrite Lc in H1. inversion H1; subst i1 n1. fold bs in H2.
    destruct (Blk i es ls' H2 Hv) as (x & Hx & Nx). rewrite (loc_nth _ _ Lc). exists x. cbn [fst snd]. rewrite Nx. auto.
  - intros a b Hr S. destruct (runs_live a Hr) as (i & n & Lc & Hi & Hv). rewrite (loc_nth _ _ Lc). cbn [fst snd].
    destruct S as [pc E|pc l E|pc e l t E Ho Hlb Et|pc e E Hno Hnc].
    + exfalso. apply Hnd. eapply nth_error_In; eauto.
    + destruct (loc_lbl noret p None [] [] 1 pc l Hnd ok_init E) as (i1 & n1 & j & es & ls' & es' & ls'' & H1 & H2 & H3 & H4 & H5 & H6).
      cbn [length] in H1, H2. rewrite Lc in H1. inversion H1; subst i1 n1. fold bs in H3, H4. rewrite (loc_nth _ _ H2). cbn [fst snd].
      destruct H6 as [H6|H6].
      * destruct (loc_lbl_same noret p None [] 1 pc l Hnd ok_init E) as [Q|Q].
        -- left. split; [eauto|]. cbn [length] in Q. rewrite Lc in Q. cbn [length] in H2. congruence.
        -- exfalso. destruct Q as (q & (n2 & Q1) & Q2). cbn [length] in Q1, Q2. rewrite Lc in Q1. inversion Q1; subst q. rewrite H2 in Q2. inversion Q2. lia.
      * right. right. assert (Lk : lookup l 1 bs = Some (S j)) by (apply (lookup_spec noret l bs 1 j es' ls''); auto; apply bs_labels).
        destruct (Jmp i es ls' n (mkjmp l) l (S j) H3 Hv H6) as [G1 G2]; auto; now left.
    + destruct (loc_ex noret p None [] [] 1 pc e E) as (i1 & n1 & es & ls' & H1 & H2 & H3 & _). cbn [length] in H1. rewrite Lc in H1. inversion H1; subst i1 n1. fold bs in H2.
      destruct (loc_lbl noret p None [] [] 1 t l Hnd ok_init Et) as (i2 & n2 & j & es0 & ls0 & es' & ls'' & _ & G2 & _ & G4 & G5 & _).
      fold bs in G4. cbn [length] in G2. rewrite (loc_nth _ _ G2). cbn [fst snd]. right. right.
      assert (Ho' : eop e = Ojmp \/ eop e = Ocjmp) by (cbn in Ho; intuition).
      assert (Lk : lookup l 1 bs = Some (S j)) by (apply (lookup_spec noret l bs 1 j es' ls''); auto; apply bs_labels).
      destruct (Jmp i es ls' n e l (S j) H2 Hv H3 Ho' Hlb Lk) as [K1 K2]. auto.
    + destruct (loc_ex noret p None [] [] 1 pc e E) as (i1 & n1 & es & ls' & H1 & H2 & H3 & H4). cbn [length] in H1, H4. rewrite Lc in H1. inversion H1; subst i1 n1.
      right. left. split; [eauto|]. apply loc_nth. apply H4. unfold endsblock. cbn in Hno. destruct (eop e); auto; try (exfalso; tauto).
      destruct (isnonretcall noret e); auto. exfalso. apply Hnc. auto.
Qed.

(* the last block and its successors *)
Lemma last_block : exists es ls, nth_error bs (m - 1) = Some (es, ls) /\ plain noret es /\ nth_error (locs noret None 0 1 p) (length p) = Some (m, length es).
Proof.
  destruct (loc_end noret p None [] [] 1) as (es & ls & H1 & H2). cbn [length] in H1. fold bs in H1, H2. fold m in H1, H2.
  exists es, ls. pose proof m_pos. split; auto. split.
  - destruct (mid_shape _ _ _ H2) as [[_ P]|[C _]]; auto. lia.
  - rewrite H1. do 2 f_equal. lia.
Qed.

Lemma fold_true (f : nat -> option bool) l : fold_left (fun acc i => match acc with Some true => f i | r => r end) l (Some true) = Some true ->
  forall i, In i l -> f i = Some true.
Proof.
  assert (St : forall l x, x <> Some true -> fold_left (fun acc i => match acc with Some true => f i | r => r end) l x = x).
  { clear. induction l as [|y l IH]; intros x H; cbn [fold_left]; auto. destruct x as [[|]|]; [congruence|apply IH; congruence|apply IH; congruence]. }
  induction l as [|y l IH]; intros H i Hi; [destruct Hi|]. cbn [fold_left] in H.
  destruct (f y) as [[|]|] eqn:E; [|rewrite St in H by congruence; discriminate|rewrite St in H by congruence; discriminate].
  destruct Hi as [<-|Hi]; auto.
Qed.

Definition chk (fuel : nat) (g : cfg) (i : nat) : option bool :=
  match blk g i with
  | None => None
  | Some q => match rev (nl q) with
              | [] => checkpredret fuel g q
              | l :: _ => match eop l with Oret | Odead => Some true | _ => Some false end
              end
  end.
Lemma checkpredret_S fuel g b : checkpredret (S fuel) g b = fold_left (fun acc i => match acc with Some true => chk fuel g i | r => r end) (members (length g) (pred b)) (Some true).
Proof. reflexivity. Qed.

Lemma checkpredret_pred fuel g b i : checkpredret fuel g b = Some true -> bshas (pred b) i = true -> i < length g -> exists f, fuel = S f /\ chk f g i = Some true.
Proof.
  destruct fuel as [|f]; [discriminate|]. rewrite checkpredret_S. intros H P Li. exists f. split; auto. apply (fold_true (chk f g) _ H). now apply in_members.
Qed.

Lemma last_snoc (A : Type) (l : list A) x : rev (l ++ [x]) = x :: rev l.
Proof. rewrite rev_app_distr. reflexivity. Qed.

(* the empty-body case: a single empty block *)
Definition trivial_body := m = 1 /\ exists ls, nth_error bs 0 = Some ([], ls).

Lemma accepted_no_fall fuel g post_b : J noret g0 g -> blk g post = Some post_b -> checkpredret fuel g post_b = Some true ->
  Runs noret p (length p) -> trivial_body.
Proof.
  intros HJ Hpb Hc Hrun. destruct HJ as (L & J1 & J2 & J3 & J4 & J5).
  destruct last_block as (es & ls & E & Pl & Loc). destruct (runs_live _ Hrun) as (i & n & Loc' & Hi & Hv).
  rewrite Loc in Loc'. inversion Loc' as [[Em En]]. assert (Ei : i = m - 1) by lia. rewrite <- Em in Hv.
  destruct (blk0_mid _ _ _ E) as (b0 & Hb0 & Nb0 & Pb0). replace (S (m - 1)) with m in Hb0, Pb0 by (pose proof m_pos; lia).
  assert (ND : ~ dead0 noret g0 m).
  { intros (b & Hb & D). assert (b = b0) by congruence. subst b. rewrite Nb0, (trimpos_plain noret es Pl) in D. discriminate. }
  assert (EP : E0 g0 m post) by (apply E0_iff; split; [right; now left|auto]).
  pose proof (J3 m post post_b Hv ND EP Hpb) as Pm.
  destruct (J2 m Hv) as (bm & Hbm). destruct (J1 m bm Hbm) as (b0' & Hb0' & Nbm). assert (b0' = b0) by congruence. subst b0'.
  destruct (checkpredret_pred fuel g post_b m Hc Pm (blk_lt g _ _ Hbm)) as (f & -> & Ck). unfold chk in Ck. rewrite Hbm, Nbm, Nb0 in Ck.
  destruct es as [|e0 es0] using rev_ind.
  2:{ exfalso. rewrite last_snoc in Ck. unfold plain in Pl. rewrite Forall_forall in Pl. specialize (Pl e0 ltac:(apply in_or_app; right; now left)).
      unfold endsblock in Pl. destruct (eop e0); discriminate. }
  cbn [rev] in Ck. clear IHes0 || idtac.
  (* m is empty: who jumps to it? *)
  assert (exists k, live noret g0 k /\ ~ dead0 noret g0 k /\ E0 g0 k m) as (k & Kv & Kd & Ke).
  { inversion Hv as [Q|k j Kv Kd Ke Q]; [pose proof m_pos; lia|]. eauto. }
  pose proof (J3 k m bm Kv Kd Ke Hbm) as Pk. destruct (J2 k Kv) as (bk & Hbk). destruct (J1 k bk Hbk) as (bk0 & Hbk0 & Nbk).
  destruct (checkpredret_pred f g bm k Ck Pk (blk_lt g _ _ Hbk)) as (f' & -> & Ck').
  apply E0_iff in Ke as [Ke _]. destruct Ke as [Q|[Q|Ke]].
  - inversion Q. split; auto. exists ls. replace 0 with (m - 1) by lia. exact E.
  - exfalso. inversion Q. unfold post in *. lia.
  - exfalso. apply (jumpedges_inv noret _ _ _ _ _ _ _ Hjs) in Ke as (i' & es' & ls' & ts & -> & H1 & H2 & H3).
    destruct (blk0_mid _ _ _ H1) as (b1 & Hb1 & Nb1 & _). cbn [Nat.add] in Hbk0. assert (b1 = bk0) by congruence. subst b1.
    apply (alltargets_inv _ _ _ _ _ H2) in H3 as (e & te & He & Te & Ht).
    assert (Ej : eop e = Ojmp \/ eop e = Ocjmp).
    { unfold targets in Te. destruct (eop e); auto; inversion Te; subst; try (destruct Ht; fail). destruct Ht as [Q|[]]. unfold post in Q. lia. }
    assert (En2 : endsblock noret e = true) by (unfold endsblock; destruct Ej as [->| ->]; reflexivity).
    apply In_nth_error in He as (q & He).
    destruct (mid_shape i' es' ls' H1) as [[_ P]|[_ (pre & e' & -> & P & En')]].
    + pose proof (plain_at noret es' q e P He). congruence.
    + destruct (closed_at noret pre e' q e P He En2) as [-> _]. unfold chk in Ck'. rewrite Hbk in Ck'. rewrite Nbk, Nb1 in Ck'. rewrite last_snoc in Ck'.
      destruct Ej as [Ej|Ej]; rewrite Ej in Ck'; discriminate.
Qed.

(* a body with anything in it does not give a single empty block *)
Lemma trivial_short : trivial_body -> p = [] \/ exists l, p = [ILbl l].
Proof.
  intros (Hm & ls & E). unfold m in Hm. unfold bs in *. destruct p as [|[|l|e] q] eqn:Ep; auto.
  - exfalso. apply Hnd. now left.
  - rewrite build_lbl in *. cbn [length Nat.add fallsinto Nat.eqb] in *. destruct q as [|[|l2|e] q].
    + right. eauto.
    + exfalso. apply Hnd. right. now left.
    + exfalso. rewrite build_lbl in *. cbn [length Nat.add fallsinto Nat.eqb app] in *. cbn in E. discriminate.
    + exfalso. rewrite build_ex in *. cbn [app] in *. destruct (endsblock noret e); [cbn in E; discriminate|].
      destruct (build_hd noret q (Some (IEx e)) [e] [l]) as (x & y & z & Q). rewrite Q in E. cbn in E. discriminate.
  - exfalso. rewrite build_ex in *. cbn [app] in *. destruct (endsblock noret e); [cbn in E; discriminate|].
    destruct (build_hd noret q (Some (IEx e)) [e] []) as (x & y & z & Q). rewrite Q in E. cbn in E. discriminate.
Qed.

(* --- the check terminates --- *)
Lemma empty_blocks g i b : J noret g0 g -> blk g i = Some b -> nl b = [] -> i = 0 \/ i = post \/ i = m.
Proof.
  intros (L & J1 & _) Hb Hn. destruct (J1 i b Hb) as (b0 & Hb0 & En).
  destruct (blk0_inv i b0 Hb0) as (_ & _ & _ & [[-> _]|[[-> _]|(i' & es & ls & -> & E & En2)]]); auto.
  destruct (mid_shape i' es ls E) as [[H _]|[_ (pre & e & -> & _)]]; auto. exfalso. destruct pre; cbn in En2; congruence.
Qed.

Lemma fold_notnone (f : nat -> option bool) l x : x <> None -> (forall i, In i l -> f i <> None) ->
  fold_left (fun acc i => match acc with Some true => f i | r => r end) l x <> None.
Proof.
  revert x. induction l as [|y l IH]; intros x Hx H; cbn [fold_left]; auto. apply IH; [|intros; apply H; now right].
  destruct x as [[|]|]; auto. apply H. now left.
Qed.

Lemma checkpredret_terminates fuel g b : J noret g0 g -> blk g post = Some b -> 3 <= fuel -> checkpredret fuel g b <> None.
Proof.
  intros HJ Hb Hf. destruct fuel as [|[|[|fuel]]]; try lia. clear Hf. destruct HJ as (L & J1 & J2 & J3 & J4 & J5).
  assert (HJ : J noret g0 g) by (repeat split; auto; now apply (J4 i j b0)).
  rewrite checkpredret_S. apply fold_notnone; [congruence|]. intros i Hi. apply in_members in Hi as [_ Hi].
  destruct (J4 i post b Hb Hi) as [Ei (bi & Hbi & _)]. unfold chk. rewrite Hbi.
  destruct (rev (nl bi)) as [|l r] eqn:R; [|destruct (eop l); congruence].
  assert (N1 : nl bi = []) by (rewrite <- (rev_involutive (nl bi)), R; reflexivity).
  rewrite checkpredret_S. apply fold_notnone; [congruence|]. intros k Hk. apply in_members in Hk as [_ Hk].
  destruct (J4 k i bi Hbi Hk) as [Ek (bk & Hbk & _)]. unfold chk. rewrite Hbk.
  destruct (rev (nl bk)) as [|l r] eqn:R2; [|destruct (eop l); congruence].
  assert (N2 : nl bk = []) by (rewrite <- (rev_involutive (nl bk)), R2; reflexivity).
  (* k is empty and precedes the empty block i: k is the start block, which has no predecessor *)
  assert (k = 0).
  { apply E0_iff in Ei as [Ei _], Ek as [Ek _]. destruct (edges_src _ _ Ei) as [I1 I2], (edges_src _ _ Ek) as [K1 K2].
    destruct (empty_blocks g k bk HJ Hbk N2) as [|[Q|Q]]; auto; [unfold post in *; lia|]. exfalso. subst k.
    (* m -> i with i an existing empty block other than post: impossible *)
    destruct Ek as [E|[E|E]]; [inversion E; pose proof m_pos; lia|inversion E; unfold post in *; lia|].
    apply (jumpedges_inv noret _ _ _ _ _ _ _ Hjs) in E as (i' & es & ls & ts & Em & H1 & H2 & H3).
    destruct (blk0_mid _ _ _ H1) as (b1 & Hb1 & Nb1 & _). destruct (J1 m bk Hbk) as (bm0 & Hbm0 & Nbm). rewrite Em in Hbm0. cbn [Nat.add] in Hbm0.
    assert (b1 = bm0) by congruence. subst b1. rewrite Nb1, N2 in Nbm. subst es. rewrite <- Nbm in H2. cbn in H2. injection H2 as <-. exact H3. }
  subst k. rewrite checkpredret_S.
  replace (members (length g) (pred bk)) with (@nil nat); [cbn; congruence|].
  symmetry. destruct (members (length g) (pred bk)) as [|x l] eqn:M; auto. exfalso.
  assert (Hx : In x (members (length g) (pred bk))) by (rewrite M; now left). apply in_members in Hx as [_ Hx].
  destruct (J4 x 0 bk Hbk Hx) as [Ex _]. apply E0_iff in Ex as [Ex _]. destruct Ex as [E|[E|E]]; [inversion E|inversion E|].
  apply (jumpedges_inv noret _ _ _ _ _ _ _ Hjs) in E as (i' & es & ls & ts & _ & _ & H2 & H3).
  apply (alltargets_inv _ _ _ _ _ H2) in H3 as (e & te & _ & Te & Ht).
  assert (LK : forall ls te, lookups ls bs = Some te -> In 0 te -> False).
  { clear. intros ls. induction ls as [|x ls IH]; intros te E H; cbn [lookups] in E; [inversion E; subst; destruct H|].
    destruct (lookup x 1 bs) as [q|] eqn:Lk; [|discriminate]. destruct (lookups ls bs) as [qs|]; [|discriminate]. inversion E; subst.
    destruct H as [->|H]; [|eapply IH; eauto]. apply lookup_range in Lk. lia. }
  unfold targets in Te. destruct (eop e); try (inversion Te; subst; destruct Ht; fail); try (eapply LK; eauto; fail).
  inversion Te; subst. destruct Ht as [E|[]]. discriminate.
Qed.
End R.

Lemma mkcfg0_inv noret p g : mkcfg0 noret p = Some g -> exists js,
  jumpedges (build noret None [] [] p) (S (length (build noret None [] [] p))) 1 (build noret None [] [] p) = Some js /\
  g = mkgraph (([], []) :: build noret None [] [] p ++ [([], [])]) ((0, 1) :: (length (build noret None [] [] p), S (length (build noret None [] [] p))) :: js).
Proof.
  unfold mkcfg0. cbv zeta. destruct (jumpedges _ _ _ _) as [js|]; [|discriminate]. intros E. exists js. split; auto. congruence.
Qed.

Lemma post_index noret p js : length (mkgraph (([], []) :: build noret None [] [] p ++ [([], [])]) js) - 1 = S (length (build noret None [] [] p)).
Proof. rewrite mkgraph_length. cbn [length]. rewrite app_length. cbn [length]. lia. Qed.

Lemma checkret_sound fuel noret p : nodecl p -> NoDup (labels p) -> p <> [] -> (forall l, p <> [ILbl l]) ->
  checkret fuel noret p = Accept -> ~ Runs noret p (length p).
Proof.
  intros Hnd Hl Hne Hn1 Hc Hrun. unfold checkret, mkcfg in Hc. destruct (mkcfg0 noret p) as [g0|] eqn:E0; [|discriminate].
  apply mkcfg0_inv in E0 as (js & Hjs & Eg). set (bs := build noret None [] [] p) in *.
  assert (Pi : length g0 - 1 = S (length bs)) by (rewrite Eg; apply post_index).
  assert (JJ : J noret g0 g0) by (rewrite Eg; exact (J0 noret p js Hjs)).
  destruct (trim fuel noret (length g0 - 1) g0) as [g|] eqn:T; [|discriminate].
  destruct (trim_J noret g0 (length g0 - 1)) with (fuel := fuel) (g := g0) (g' := g) as [JT _]; auto.
  { rewrite Eg. apply G_both. exact Hjs. }
  { rewrite Eg. apply (G_trim noret p Hnd). }
  assert (Lg : length g = length g0) by apply JT.
  rewrite Lg in Hc. destruct (blk g (length g0 - 1)) as [e|] eqn:Be; [|discriminate].
  destruct (checkpredret fuel g e) as [[|]|] eqn:Ck; try discriminate.
  rewrite Pi in Be. rewrite Eg in JT.
  assert (TB : trivial_body noret p) by (eapply (accepted_no_fall noret p Hnd Hl js Hjs); eauto).
  destruct (trivial_short noret p Hnd Hl js Hjs TB) as [->|(l & ->)]; [congruence|]. eapply Hn1; eauto.
Qed.

Lemma checkret_terminates noret p fuel : nodecl p -> NoDup (labels p) -> 2 * length p + 6 <= fuel -> checkret fuel noret p <> Diverge.
Proof.
  intros Hnd Hl Hf. unfold checkret, mkcfg. destruct (mkcfg0 noret p) as [g0|] eqn:E0; [|discriminate].
  apply mkcfg0_inv in E0 as (js & Hjs & Eg). set (bs := build noret None [] [] p) in *.
  assert (Pi : length g0 - 1 = S (length bs)) by (rewrite Eg; apply post_index).
  assert (JJ : J noret g0 g0) by (rewrite Eg; exact (J0 noret p js Hjs)).
  assert (GB : forall i j, Cfg_Build.E0 g0 i j -> exists bi, blk g0 i = Some bi /\ bshas (succ bi) j = true).
  { rewrite Eg. apply G_both. exact Hjs. }
  assert (GT : forall i b, blk g0 i = Some b -> fst (trimpos noret (nl b)) = length (nl b)).
  { rewrite Eg. apply (G_trim noret p Hnd). }
  assert (Lb : length bs <= length p + 1).
  { assert (G : forall q prev cur ls, length (build noret prev cur ls q) <= length q + 1).
    { clear. induction q as [|[|l|e] q IH]; intros prev cur ls.
      - cbn. lia.
      - specialize (IH (Some IDecl) cur ls). cbn [length Cfg_Model.build]. lia.
      - rewrite build_lbl. pose proof (IH (Some (ILbl l)) [] (ls ++ [l])). pose proof (IH (Some (ILbl l)) [] [l]). destruct (_ =? 0); cbn [length]; lia.
      - rewrite build_ex. pose proof (IH (Some (IEx e)) [] []). pose proof (IH (Some (IEx e)) (cur ++ [e]) ls). destruct (endsblock noret e); cbn [length]; lia. }
    apply G. }
  assert (Al : alive g0 < fuel).
  { unfold alive. assert (length (filter (fun b => match b with Some _ => true | None => false end) g0) <= length g0).
    { clear. induction g0 as [|x l IH]; cbn; auto. destruct x; cbn; lia. } lia. }
  destruct (trim_terminates noret g0 (length g0 - 1) GB GT fuel g0 JJ Al) as (g & T). rewrite T.
  destruct (trim_J noret g0 (length g0 - 1) GB GT fuel g0 g JJ T) as [JT _].
  assert (Lg : length g = length g0) by apply JT.
  rewrite Lg. destruct (blk g (length g0 - 1)) as [e|] eqn:Be; [|discriminate].
  assert (checkpredret fuel g e <> None).
  { rewrite Pi in Be. rewrite Eg in JT. eapply (checkpredret_terminates noret p Hnd js Hjs); eauto. lia. }
  destruct (checkpredret fuel g e) as [[|]|]; congruence.
Qed.

Lemma mkcfg_covers fuel noret p g : nodecl p -> NoDup (labels p) -> mkcfg fuel noret p = Some (Some g) ->
  exists loc : nat -> point,
  (forall pc e, Runs noret p pc -> nth_error p pc = Some (IEx e) -> stmt_at g (loc pc) e) /\
  (forall a b, Runs noret p a -> Step noret p a b ->
     ((exists l, nth_error p a = Some (ILbl l)) /\ loc b = loc a) \/
     ((exists e, nth_error p a = Some (IEx e)) /\ loc b = (fst (loc a), S (snd (loc a)))) \/
     (edge g (fst (loc a)) (fst (loc b)) /\ snd (loc b) = 0 /\
      exists x s, blk g (fst (loc a)) = Some x /\ nth_error (nl x) (snd (loc a)) = Some s /\ length (nl x) = S (snd (loc a)) /\
                  (eop s = Ojmp \/ eop s = Ocjmp))).
Proof.
  intros Hnd Hl E. unfold mkcfg in E. destruct (mkcfg0 noret p) as [g0|] eqn:E0; [|discriminate].
  apply mkcfg0_inv in E0 as (js & Hjs & Eg).
  destruct (trim fuel noret (length g0 - 1) g0) as [g'|] eqn:T; [|discriminate]. injection E as <-.
  exists (Cfg_Ret.loc noret p). apply (covers noret p Hnd Hl js Hjs). rewrite <- Eg.
  apply (trim_J noret g0 (length g0 - 1)) with (fuel := fuel) (g := g0).
  - rewrite Eg. apply G_both. exact Hjs.
  - rewrite Eg. apply (G_trim noret p Hnd).
  - rewrite Eg. exact (J0 noret p js Hjs).
  - exact T.
Qed.


Lemma jump_no_assign s v : eop s = Ojmp \/ eop s = Ocjmp -> ~ Assigns s v.
Proof. intros H A. destruct A as [o ? ? ? ? ? ? ? ? ? ? I|o ? ? ? ? ? ? ? ? ? ? ? ? ? ? ? I]; cbn in H, I; destruct H; subst; intuition discriminate. Qed.

Lemma freaches_reaches fuel noret p g : nodecl p -> NoDup (labels p) -> mkcfg fuel noret p = Some (Some g) ->
  exists loc : nat -> point,
  (forall pc e, Runs noret p pc -> nth_error p pc = Some (IEx e) -> stmt_at g (loc pc) e) /\
  (forall d v pc, FReaches noret p d v pc -> Reaches g d v (loc pc)).
Proof.
  intros Hnd Hl E. destruct (mkcfg_covers fuel noret p g Hnd Hl E) as (loc & H1 & H2). exists loc. split; [exact H1|].
  intros d v pc F. assert (G : Runs noret p pc /\ Reaches g d v (loc pc)); [|tauto].
  induction F as [pc s pc' Hr Hs Hd Ha Hst|pc pc' F [Hr IH] Hna Hst].
  - split; [eapply run_step; eauto|]. pose proof (H1 _ _ Hr Hs) as At. pose proof (H2 _ _ Hr Hst) as H3. destruct (loc pc) as [i k] eqn:Lp.
    destruct H3 as [[(l & Q) _]|[[_ Q]|(_ & _ & x & j & Bx & Nj & _ & Oj)]]; cbn [fst snd] in *.
    + congruence.
    + rewrite Q. now apply (re_def g d v i k s).
    + exfalso. destruct At as (b & Bb & Nb). cbn [fst snd] in *. assert (b = x) by congruence; subst b. assert (s = j) by congruence; subst j.
      exact (jump_no_assign s v Oj Ha).
  - split; [eapply run_step; eauto|]. pose proof (H2 _ _ Hr Hst) as H3. destruct (loc pc) as [i k] eqn:Lp.
    destruct H3 as [[_ Q]|[[(e & He) Q]|(Ed & Q & x & j & Bx & Nj & Len & Oj)]]; cbn [fst snd] in *.
    + rewrite Q. exact IH.
    + rewrite Q. apply (re_stmt g d v i k e); auto. pose proof (H1 _ _ Hr He) as At. now rewrite Lp in At.
    + destruct (loc pc') as [i' k']. cbn [fst snd] in *. subst k'. apply (re_edge g d v i i' x); auto.
      rewrite Len. apply (re_stmt g d v i k j); auto. { exists x. auto. } now apply jump_no_assign.
Qed.

Lemma build_in noret p : forall prev cur ls es s, In es (map fst (build noret prev cur ls p)) -> In s es ->
  In s cur \/ In (IEx s) p \/ exists l, s = mkjmp l.
Proof.
  induction p as [|x p IH]; intros prev cur ls es s H Hs.
  - cbn in H. destruct H as [<-|[]]. auto.
  - destruct x as [|l|e].
    + apply (IH _ _ _ _ _ H) in Hs. cbn. intuition.
    + cbn [build] in H. remember (if fallsinto prev then cur ++ [mkjmp l] else cur) as c eqn:Ec.
      assert (Hc : forall z, In z c -> In z cur \/ exists l, z = mkjmp l).
      { intros z Hz. subst c. destruct (fallsinto prev); auto. apply in_app_or in Hz as [?|[<-|[]]]; eauto. }
      destruct c as [|c0 c].
      * apply (IH _ _ _ _ _ H) in Hs. cbn in Hs |- *. intuition.
      * cbn [map In fst] in H. destruct H as [<-|H].
        -- apply Hc in Hs. cbn. intuition.
        -- apply (IH _ _ _ _ _ H) in Hs. cbn. cbn in Hs. intuition.
    + cbn [build] in H. destruct (endsblock noret e).
      * cbn [map In fst] in H. destruct H as [<-|H].
        -- apply in_app_or in Hs as [?|[<-|[]]]; cbn; auto.
        -- apply (IH _ _ _ _ _ H) in Hs. cbn. cbn in Hs. intuition.
      * apply (IH _ _ _ _ _ H) in Hs. cbn. destruct Hs as [Hs|Hs]; [|intuition]. apply in_app_or in Hs as [?|[<-|[]]]; auto.
Qed.

Lemma mkcfg_stmts fuel noret p g s : nodecl p -> mkcfg fuel noret p = Some (Some g) -> In s (stmts g) -> In (IEx s) p \/ exists l, s = mkjmp l.
Proof.
  intros Hnd E Hs. unfold mkcfg in E. destruct (mkcfg0 noret p) as [g0|] eqn:E0; [|discriminate].
  apply mkcfg0_inv in E0 as (js & Hjs & Eg).
  destruct (trim fuel noret (length g0 - 1) g0) as [g'|] eqn:T; [|discriminate]. injection E as <-.
  assert (HJ : J noret g0 g').
  { apply (trim_J noret g0 (length g0 - 1)) with (fuel := fuel) (g := g0); [| | |exact T].
    - rewrite Eg. apply G_both. exact Hjs.
    - rewrite Eg. apply (G_trim noret p Hnd).
    - rewrite Eg. exact (J0 noret p js Hjs). }
  destruct HJ as (_ & J1 & _). unfold stmts in Hs. apply in_flat_map in Hs as (ob & Hob & Hs). destruct ob as [b|]; [|destruct Hs].
  apply In_nth with (d := None) in Hob as (i & Hi & Hb). destruct (J1 i b Hb) as (b0 & Hb0 & Nb). rewrite Nb in Hs.
  rewrite Eg in Hb0. rewrite blk_mkgraph in Hb0.
  destruct (nth_error (([], []) :: build noret None [] [] p ++ [([], [])]) i) as [[es ls]|] eqn:En; [|discriminate].
  injection Hb0 as <-. cbn [nl] in Hs.
  assert (In es (map fst (build noret None [] [] p))).
  { destruct i as [|i]; [cbn in En; injection En as <- <-; destruct Hs|]. cbn [nth_error] in En. apply nth_error_In, in_app_or in En as [En|[En|[]]].
    - apply in_map with (f := fst) in En. exact En.
    - injection En as <- <-. destruct Hs. }
  destruct (build_in noret p None [] [] es s H Hs) as [[]|]; auto.
Qed.

Lemma body_graph_ok fuel noret p g : nodecl p -> mkcfg fuel noret p = Some (Some g) ->
  body_distinct p -> body_dont_alias p -> distinct_nodes g /\ stores_dont_alias g.
Proof.
  intros Hnd E BD BA.
  assert (Jn : forall l v, ~ Assigns (mkjmp l) v) by (intros; apply jump_no_assign; now left).
  split.
  - intros s s' v H1 H2 A En. destruct (mkcfg_stmts _ _ _ _ _ Hnd E H1) as [I1|(l & ->)]; [|now apply Jn in A].
    destruct (BD s v I1 A) as [N0 U]. destruct (mkcfg_stmts _ _ _ _ _ Hnd E H2) as [I2|(l & ->)]; auto.
    exfalso. apply N0. exact En.
  - intros s n H1 As On s' H2 A. destruct (mkcfg_stmts _ _ _ _ _ Hnd E H2) as [I2|(l & ->)]; [|now apply Jn in A].
    destruct (mkcfg_stmts _ _ _ _ _ Hnd E H1) as [I1|(l & ->)]; [|discriminate].
    exact (BA s n I1 As On s' I2 A).
Qed.
