(* Proofs about the use-before-definition check (mi/dfcheck.c checkreach, checkundef). *)
From Verif Require Import Base Cfg_Model Cfg_Spec Cfg_Reach.

Section Ind.
Context (P : expr -> Prop).
Hypothesis H : forall o i d a j args, Forall P args -> P (Ex o i d a j args).
Fixpoint expr_ind' (e : expr) : P e :=
  match e with
  | Ex o i d a j args =>
      H o i d a j args ((fix go l : Forall P l := match l with [] => Forall_nil _ | x :: l => Forall_cons x (expr_ind' x) (go l) end) args)
  end.
End Ind.

Section Undef.
Context (isconst : nat -> bool) (df : nat -> list nat) (nop : nat -> op) (reach kill : bset).
Let chk := checkundef isconst df nop reach kill.
Definition bad (v d : nat) := In d (df v) /\ bshas reach d = true /\ bshas kill d = false /\ isundef (nop d) = true.

Lemma checkundef_sound e v d : chk e = true -> ReadsChecked v e -> isconst v = false -> ~ bad v d.
Proof.
  unfold chk. intros C R Hc (Hd & Hr & Hk & Hu). induction R as [i j args|o i d0 a j x y rest Ho R IH|o i d0 a j x rest y Ho Hy R IH|i d0 a j x rest y Hy Hya R IH|o i d0 a j args y Ho Hy R IH].
  - cbn [checkundef] in C. rewrite Hc in C. rewrite forallb_forall in C. specialize (C d Hd).
    rewrite Hk, Hr, Hu in C. discriminate.
  - apply IH. cbn in Ho. repeat (destruct Ho as [<-|Ho]; [exact C|]). destruct Ho.
  - apply IH. cbn in Ho. assert (F : forallb (checkundef isconst df nop reach kill) rest = true).
    { repeat (destruct Ho as [<-|Ho]; [exact C|]). destruct Ho. }
    rewrite forallb_forall in F. auto.
  - apply IH. cbn [checkundef] in C. rewrite forallb_forall in C. specialize (C y Hy). cbn beta in C.
    destruct (eop y); try exact C. congruence.
  - apply IH. assert (F : forallb (checkundef isconst df nop reach kill) args = true).
    { cbn in Ho. destruct o; try exact C; exfalso; tauto. }
    rewrite forallb_forall in F. auto.
Qed.

Lemma forallb_false (A : Type) (f : A -> bool) l : forallb f l = false -> exists x, In x l /\ f x = false.
Proof.
  induction l as [|x l IH]; cbn; [discriminate|]. destruct (f x) eqn:E; cbn; intros Q; [|eauto].
  destruct (IH Q) as (y & Hy & Ey). eauto.
Qed.

Lemma checkundef_complete e : chk e = false -> exists v d, ReadsChecked v e /\ isconst v = false /\ bad v d.
Proof.
  unfold chk. induction e as [o i d a j args IH] using expr_ind'. rewrite Forall_forall in IH. intros C.
  assert (Other : forallb (checkundef isconst df nop reach kill) args = false -> ~ In o [Ovar; Oset; Oasn; Oblit; Oaddr; Oslice; Ocall] ->
     exists v d0, ReadsChecked v (Ex o i d a j args) /\ isconst v = false /\ bad v d0).
  { intros F Ho. apply forallb_false in F as (x & Hx & Ex0). destruct (IH x Hx Ex0) as (v & d0 & R & Q).
    exists v, d0. split; auto. eapply rc_other; eauto. }
  assert (Store : match args with _ :: b :: _ => checkundef isconst df nop reach kill b | _ => true end = false -> In o [Oset; Oasn; Oblit] ->
     exists v d0, ReadsChecked v (Ex o i d a j args) /\ isconst v = false /\ bad v d0).
  { intros F Ho. destruct args as [|x [|y rest]]; try discriminate.
    destruct (IH y) as (v & d0 & R & Q); [cbn; auto|auto|]. exists v, d0. split; auto. now apply rc_store. }
  assert (Addr : match args with [] => true | _ :: rest => forallb (checkundef isconst df nop reach kill) rest end = false -> In o [Oaddr; Oslice] ->
     exists v d0, ReadsChecked v (Ex o i d a j args) /\ isconst v = false /\ bad v d0).
  { intros F Ho. destruct args as [|x rest]; try discriminate. apply forallb_false in F as (y & Hy & Ey).
    destruct (IH y) as (v & d0 & R & Q); [cbn; auto|auto|]. exists v, d0. split; auto. eapply rc_index; eauto. }
  destruct o; cbn [checkundef] in C;
    try (apply Other; [exact C|cbn; intuition discriminate]);
    try (apply Store; [exact C|cbn; tauto]);
    try (apply Addr; [exact C|cbn; tauto]).
  - destruct (isconst d) eqn:Hc; [discriminate|]. apply forallb_false in C as (d0 & Hd & E).
    repeat (apply orb_false_iff in E as [E ?]). apply negb_false_iff in H, H0.
    exists d, d0. split; [|split; [auto|repeat split; auto]]. subst a. constructor.
  - destruct args as [|x rest]; [discriminate|]. apply forallb_false in C as (y & Hy & Ey).
    destruct (isaddr (eop y)) eqn:Ea; [discriminate|].
    destruct (IH y) as (v & d0 & R & Q); [cbn; auto|auto|]. exists v, d0. split; auto.
    eapply rc_arg; eauto. intros E. rewrite E in Ea. discriminate.
Qed.
End Undef.

(* the sets in force when the k-th statement of a block is checked *)
Section Block.
Context (isconst : nat -> bool) (df : nat -> list nat) (nop : nat -> op).
Definition kills (s : expr) (d : nat) : Prop := isundef (eop s) = false /\ exists m, assignee s = Some m /\ In d (df (edid m)).
Definition reach_at (reach : bset) ss k d := bshas reach d = true \/ exists k' s, k' < k /\ nth_error ss k' = Some s /\ isundef (eop s) = true /\ enid s = d.
Definition kill_at (kill : bset) ss k d := bshas kill d = true \/ exists k' s, k' <= k /\ nth_error ss k' = Some s /\ kills s d.

Lemma existsb_eqb_in d l : existsb (Nat.eqb d) l = true <-> In d l.
Proof. rewrite existsb_exists. split; [intros (x & Hx & E); apply Nat.eqb_eq in E; congruence|intros H; exists d; split; auto; apply Nat.eqb_refl]. Qed.

Lemma kill_step kill n d : isundef (eop n) = false ->
  bshas (match assignee n with Some m => fold_left bsput (df (edid m)) kill | None => kill end) d = true
  <-> bshas kill d = true \/ kills n d.
Proof.
  intros Hu. unfold kills. destruct (assignee n) as [m|].
  - rewrite has_fold_put, orb_true_iff, existsb_eqb_in. split; [intros [H|H]; eauto|intros [H|(_ & m' & E & H)]; auto]. right. congruence.
  - split; auto. intros [H|(_ & m' & E & _)]; auto. discriminate.
Qed.

Lemma checkblock_true ss : forall reach kill, checkblock isconst df nop reach kill ss = true ->
  forall k s, nth_error ss k = Some s -> isundef (eop s) = false ->
  exists R K, checkundef isconst df nop R K s = true /\
    (forall d, bshas R d = true <-> reach_at reach ss k d) /\ (forall d, bshas K d = true <-> kill_at kill ss k d).
Proof.
  induction ss as [|n ss IH]; intros reach kill C k s E Hu; [now destruct k|].
  cbn [checkblock] in C. destruct (isundef (eop n)) eqn:Hn.
  - destruct k as [|k]; cbn in E; [congruence|]. destruct (IH _ _ C k s E Hu) as (R & K & HC & HR & HK).
    exists R, K. split; auto. split; intros d; rewrite ?HR, ?HK; unfold reach_at, kill_at.
    + rewrite has_put, orb_true_iff, Nat.eqb_eq. split.
      * intros [[<-|H]|(k' & s' & ? & ? & ?)]; auto; right; [exists 0, n|exists (S k'), s']; repeat split; auto; try lia; tauto.
      * intros [H|(k' & s' & Hk & Hs & U & En)]; auto. destruct k' as [|k']; cbn in Hs; [inversion Hs; subst; auto|].
        right. exists k', s'. repeat split; auto. lia.
    + split.
      * intros [H|(k' & s' & ? & ? & ?)]; auto; right; exists (S k'), s'; repeat split; auto; try lia; apply H1.
      * intros [H|(k' & s' & Hk & Hs & U)]; auto. destruct k' as [|k']; cbn in Hs; [inversion Hs; subst; destruct U; congruence|].
        right. exists k', s'. split; [lia|auto].
  - apply andb_true_iff in C as [C1 C2]. destruct k as [|k]; cbn in E.
    + inversion E; subst n. eexists _, _. split; [exact C1|]. split; intros d.
      * unfold reach_at. split; auto. intros [H|(k' & s' & ? & ?)]; auto. lia.
      * rewrite (kill_step kill s d Hn). unfold kill_at. split.
        -- intros [H|H]; auto. right. exists 0, s. auto.
        -- intros [H|(k' & s' & Hk & Hs & U)]; auto. assert (k' = 0) by lia. subst k'. cbn in Hs. inversion Hs; subst. auto.
    + destruct (IH _ _ C2 k s E Hu) as (R & K & HC & HR & HK).
      exists R, K. split; auto. split; intros d; rewrite ?HR, ?HK; unfold reach_at, kill_at.
      * split.
        -- intros [H|(k' & s' & ? & ? & ?)]; auto; right; exists (S k'), s'; repeat split; auto; try lia; tauto.
        -- intros [H|(k' & s' & Hk & Hs & U & En)]; auto. destruct k' as [|k']; cbn in Hs; [inversion Hs; subst; congruence|].
           right. exists k', s'. repeat split; auto. lia.
      * rewrite (kill_step kill n d Hn). split.
        -- intros [[H|H]|(k' & s' & ? & ? & ?)]; auto; right; [exists 0, n|exists (S k'), s']; repeat split; auto; try lia; try apply H; try apply H1.
        -- intros [H|(k' & s' & Hk & Hs & U)]; auto. destruct k' as [|k']; cbn in Hs; [inversion Hs; subst; auto|].
           right. exists k', s'. split; [lia|auto].
Qed.

Lemma checkblock_false ss : forall reach kill, checkblock isconst df nop reach kill ss = false ->
  exists k s R K, nth_error ss k = Some s /\ isundef (eop s) = false /\ checkundef isconst df nop R K s = false /\
    (forall d, bshas R d = true <-> reach_at reach ss k d) /\ (forall d, bshas K d = true <-> kill_at kill ss k d).
Proof.
  induction ss as [|n ss IH]; intros reach kill C; [discriminate|].
  cbn [checkblock] in C. destruct (isundef (eop n)) eqn:Hn.
  - destruct (IH _ _ C) as (k & s & R & K & E & Hu & HC & HR & HK).
    exists (S k), s, R, K. split; auto. split; auto. split; auto. split; intros d; rewrite ?HR, ?HK; unfold reach_at, kill_at.
    + rewrite has_put, orb_true_iff, Nat.eqb_eq. split.
      * intros [[<-|H]|(k' & s' & ? & ? & ?)]; auto; right; [exists 0, n|exists (S k'), s']; repeat split; auto; try lia; tauto.
      * intros [H|(k' & s' & Hk & Hs & U & En)]; auto. destruct k' as [|k']; cbn in Hs; [inversion Hs; subst; auto|].
        right. exists k', s'. repeat split; auto. lia.
    + split.
      * intros [H|(k' & s' & ? & ? & ?)]; auto; right; exists (S k'), s'; repeat split; auto; try lia; apply H1.
      * intros [H|(k' & s' & Hk & Hs & U)]; auto. destruct k' as [|k']; cbn in Hs; [inversion Hs; subst; destruct U; congruence|].
        right. exists k', s'. split; [lia|auto].
  - destruct (checkundef isconst df nop reach _ n) eqn:C1; cbn [andb] in C.
    + destruct (IH _ _ C) as (k & s & R & K & E & Hu & HC & HR & HK).
      exists (S k), s, R, K. split; auto. split; auto. split; auto. split; intros d; rewrite ?HR, ?HK; unfold reach_at, kill_at.
      * split.
        -- intros [H|(k' & s' & ? & ? & ?)]; auto; right; exists (S k'), s'; repeat split; auto; try lia; tauto.
        -- intros [H|(k' & s' & Hk & Hs & U & En)]; auto. destruct k' as [|k']; cbn in Hs; [inversion Hs; subst; congruence|].
           right. exists k', s'. repeat split; auto. lia.
      * rewrite (kill_step kill n d Hn). split.
        -- intros [[H|H]|(k' & s' & ? & ? & ?)]; auto; right; [exists 0, n|exists (S k'), s']; repeat split; auto; try lia; try apply H; try apply H1.
        -- intros [H|(k' & s' & Hk & Hs & U)]; auto. destruct k' as [|k']; cbn in Hs; [inversion Hs; subst; auto|].
           right. exists k', s'. split; [lia|auto].
    + exists 0, n. eexists _, _. split; auto. split; auto. split; [exact C1|]. split; intros d.
      * unfold reach_at. split; auto. intros [H|(k' & s' & ? & ?)]; auto. lia.
      * rewrite (kill_step kill n d Hn). unfold kill_at. split.
        -- intros [H|H]; auto. right. exists 0, n. auto.
        -- intros [H|(k' & s' & Hk & Hs & U)]; auto. assert (k' = 0) by lia. subst k'. cbn in Hs. inversion Hs; subst. auto.
Qed.
End Block.

Lemma undef_op o : isundef o = true <-> o = Oundef.
Proof. destruct o; cbn; intuition congruence. Qed.

Section Whole.
Context (isconst : nat -> bool) (g : cfg) (fuel : nat) (ins outs : list bset).
Hypothesis Hnd : distinct_nodes g.
Hypothesis Hal : stores_dont_alias g.
Hypothesis Hr : reaching fuel g = Some (ins, outs).

Lemma nodeop_in s v : Assigns s v -> In s (stmts g) -> nodeop g (enid s) = eop s.
Proof.
  intros Ha Hs. unfold nodeop. destruct (find _ _) as [s'|] eqn:E.
  - apply find_some in E as [H1 H2]. apply Nat.eqb_eq in H2. f_equal. symmetry. now apply (same_node g Hnd s s' v).
  - exfalso. apply (find_none _ _ E s) in Hs. rewrite Nat.eqb_refl in Hs. discriminate.
Qed.

Lemma kills_assigns s v d : In s (stmts g) -> In d (defs g v) -> kills (defs g) s d <-> isundef (eop s) = false /\ Assigns s v.
Proof.
  intros Hs Hd. unfold kills. split.
  - intros (U & m & E & Hm). split; auto.
    apply in_defs in Hd as (s0 & H0 & E0 & A0). apply in_defs in Hm as (s1 & H1 & E1 & A1).
    assert (s1 = s0) by (apply (same_node g Hnd s1 s0 (edid m)); congruence). subst s1.
    destruct (isvar m) eqn:V.
    + apply isvar_true in V. apply assigns_iff. exists m. repeat split; auto.
      apply assigns_iff in A0 as (m0 & M0 & _ & <-). apply assigns_iff in A1 as (m1 & M1 & _ & D1). congruence.
    + exfalso. eapply (Hal s m Hs E); [|exact H0|exact A1]. intros Q. apply isvar_true in Q. congruence.
  - intros (U & A). split; auto. apply assigns_iff in A as (m & E & _ & D). exists m. split; auto. now rewrite D.
Qed.


(* accepted => no checked read of a variable that may still be undefined *)
Lemma accept_no_undef i k s v u :
  checkreach isconst g ins = true ->
  stmt_at g (i, k) s -> eop s <> Oundef -> ReadsChecked v s -> isconst v = false ->
  In u (stmts g) -> eop u = Oundef -> Assigns u v ->
  Reaches g (enid u) v (i, k) ->
  exists k' s', k' <= k /\ stmt_at g (i, k') s' /\ eop s' <> Oundef /\ Assigns s' v.
Proof.
  intros C (b & Hb & Hs) Hu R Hc Hin Ou Au HR. cbn [fst snd] in *.
  unfold checkreach in C. rewrite forallb_forall in C. specialize (C i). rewrite Hb in C.
  assert (Hlt := blk_lt g i b Hb). specialize (C ltac:(apply in_seq; lia)).
  assert (Hu' : isundef (eop s) = false). { destruct (isundef (eop s)) eqn:Q; auto. apply undef_op in Q. congruence. }
  destruct (checkblock_true _ _ _ _ _ _ C k s Hs Hu') as (RS & KS & HC & HRS & HKS).
  assert (Hd : In (enid u) (defs g v)) by (apply in_defs; eauto).
  pose proof (checkundef_sound _ _ _ _ _ s v (enid u) HC R Hc) as NB.
  assert (Rk : bshas RS (enid u) = true).
  { apply HRS. destruct (reaches_sound g Hnd Hal ins outs (iterate_stable _ _ _ _ _ _ _ Hr) (enid u) v (i, k) HR) as [_ HP].
    unfold at_point in HP. cbn [fst snd] in HP. rewrite Hb in HP. clear - HP Hin Ou Hb Hs Hnd Au.
    assert (Hk : k <= length (nl b)) by (assert (nth_error (nl b) k <> None) by congruence; apply nth_error_Some in H; lia).
    clear Hs s. revert HP. induction k as [|k IH]; intros HP.
    - left. exact HP.
    - destruct (nth_error (nl b) k) as [s|] eqn:Es; [|apply nth_error_None in Es; lia].
      rewrite (firstn_S_nth _ _ _ _ Es), fold_left_app in HP. cbn [fold_left] in HP. rewrite has_flow in HP.
      assert (Hss : In s (stmts g)) by (apply (stmt_at_in g (i, k)); exists b; auto).
      destruct (Nat.eq_dec (enid s) (enid u)) as [En|En].
      + assert (s = u) by (symmetry; now apply (same_node g Hnd u s v)). subst s. right. exists k, u. repeat split; auto. now apply undef_op.
      + assert (HP' : bshas (fold_left (flow (defs g)) (firstn k (nl b)) (nth i ins 0%N)) (enid u) = true).
        { destruct (assignee s); auto. apply Nat.eqb_neq in En. rewrite En in HP. cbn in HP. now apply andb_true_iff in HP. }
        destruct (IH ltac:(lia) HP') as [H|(k' & s' & Hk' & Q)]; [now left|right; exists k', s'; split; [lia|auto]]. }
  destruct (bshas KS (enid u)) eqn:Kk.
  - apply HKS in Kk as [Kk|(k' & s' & Hk' & Hs' & Kl)]; [rewrite has_0 in Kk; discriminate|].
    assert (Hss : In s' (stmts g)) by (apply (stmt_at_in g (i, k')); exists b; auto).
    apply (kills_assigns s' v _ Hss Hd) in Kl as [U A]. exists k', s'. split; auto. split; [exists b; auto|]. split; auto.
    intros Q. apply undef_op in Q. congruence.
  - exfalso. apply NB. repeat split; auto. apply undef_op. now rewrite (nodeop_in u v).
Qed.

(* rejected => a path from a declaration without initialiser to a read, with no assignment on it *)
Lemma reject_real :
  checkreach isconst g ins = false ->
  exists i k s v u, stmt_at g (i, k) s /\ eop s <> Oundef /\ ReadsChecked v s /\ isconst v = false /\
    In u (stmts g) /\ eop u = Oundef /\ Assigns u v /\ Reaches g (enid u) v (i, k).
Proof.
  intros C. unfold checkreach in C. apply forallb_false in C as (i & Hi & C).
  destruct (blk g i) as [b|] eqn:Hb; [|discriminate].
  apply checkblock_false in C as (k & s & R & K & Hs & Hu & HC & HR & HK).
  apply checkundef_complete in HC as (v & d & Rd & Hc & (Hd & Dr & Dk & Du)).
  exists i, k, s, v.
  assert (Hd' := Hd). apply in_defs in Hd' as (u & Hin & En & Au). subst d.
  rewrite (nodeop_in u v Au Hin) in Du. apply undef_op in Du.
  assert (NA : forall k' s', k' < k -> nth_error (nl b) k' = Some s' -> eop s' <> Oundef -> ~ Assigns s' v).
  { intros k' s' Hk' Hs' U A. assert (bshas K (enid u) = true); [|congruence]. apply HK. right. exists k', s'.
    split; [lia|]. split; auto. apply (kills_assigns s' v); auto.
    - apply (stmt_at_in g (i, k')). exists b; auto.
    - split; auto. destruct (isundef (eop s')) eqn:Q; auto. apply undef_op in Q. congruence. }
  assert (Main : forall k0, k0 <= k ->
     (bshas (nth i ins 0%N) (enid u) = true \/ exists k' s', k' < k0 /\ nth_error (nl b) k' = Some s' /\ eop s' = Oundef /\ enid s' = enid u) ->
     exists u, In u (stmts g) /\ eop u = Oundef /\ Assigns u v /\ Reaches g (enid u) v (i, k0)).
  { induction k0 as [|k0 IH]; intros Hk0 Hor.
    - destruct Hor as [H|(k' & s' & Hk' & _)]; [|lia]. exists u. repeat split; auto.
      destruct (iterate_exact g Hnd Hal fuel _ _ _ _ (exact_init g) Hr) as [EI _]. now apply EI.
    - destruct (nth_error (nl b) k0) as [s0|] eqn:E0.
      2:{ apply nth_error_None in E0. assert (nth_error (nl b) k <> None) by congruence. apply nth_error_Some in H. lia. }
      assert (Hat : stmt_at g (i, k0) s0) by (exists b; auto).
      assert (Hin0 := stmt_at_in g _ _ Hat).
      destruct (assigns_dec s0 v) as [A|A].
      + destruct (isundef (eop s0)) eqn:U0.
        * apply undef_op in U0. exists s0. repeat split; auto. eapply re_def; eauto.
        * exfalso. apply (NA k0 s0); auto. intros Q. apply undef_op in Q. congruence.
      + destruct IH as (u' & H1 & H2 & H3 & H4); [lia| |].
        * destruct Hor as [H|(k' & s' & Hk' & Hs' & U' & En')]; auto. right. exists k', s'. repeat split; auto.
          destruct (Nat.eq_dec k' k0) as [->|]; [|lia]. exfalso. assert (s' = s0) by congruence. subst s'.
          assert (s0 = u) by (symmetry; now apply (same_node g Hnd u s0 v)). subst. contradiction.
        * exists u'. repeat split; auto. eapply re_stmt; eauto. }
  destruct (Main k (Nat.le_refl _)) as (u' & H1 & H2 & H3 & H4).
  - apply HR in Dr as [H|(k' & s' & Hk' & Hs' & U' & En')]; auto. right. exists k', s'. repeat split; auto. now apply undef_op.
  - exists u'. repeat split; auto.
    + exists b; auto.
    + intros Q. apply undef_op in Q. congruence.
Qed.
End Whole.
