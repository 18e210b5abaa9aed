(* C97 (pathnorm), C98 (pathjoin, pathcat). *)
From Verif Require Import Base ListX Sort_Model Utf_Model Str_Model Str_Spec Str_Proofs Str_Props Path_Spec Path_Model.
Open Scope N_scope.

Definition ne (c : list N) : bool := (0 <? length c)%nat.
Definition real (c : list N) : bool := (0 <? length c)%nat && negb (sleq c dotdot).
Definition stack (p : place) : list (list N) := repeat dotdot (fst p) ++ snd p.
Lemma sleq_no : forall a b, a <> b -> sleq a b = false.
Proof. intros a b H. destruct (sleq a b) eqn:E; [ | reflexivity ]. apply sleq_spec in E. contradiction. Qed.
Lemma sleq_refl : forall a, sleq a a = true.
Proof. intros. apply sleq_spec. reflexivity. Qed.
Lemma real_cases : forall c, (c = [] /\ real c = false) \/ (c = dotdot /\ real c = false) \/ (c <> [] /\ c <> dotdot /\ real c = true).
Proof.
  intros c. destruct c as [ | x c]; [ left; split; reflexivity | right ]. unfold real. destruct (sleq (x :: c) dotdot) eqn:E.
  - left. apply sleq_spec in E. rewrite E. split; reflexivity.
  - right. split; [ discriminate | ]. split; [ | reflexivity ]. intros H. rewrite H, sleq_refl in E. discriminate E.
Qed.
Lemma go_real : forall p c, c <> [46] -> real c = true -> go p c = (fst p, snd p ++ [c]).
Proof.
  intros p c H1 H2. destruct (real_cases c) as [[-> _] | [[-> _] | (Hn & Hd & _)]]; try discriminate H2.
  unfold go. destruct c as [ | x [ | y [ | z c]]]; [ congruence | | | ].
  - destruct (N.eq_dec x 46) as [-> | Hx]; [ congruence | ]. destruct x as [ | x]; [ reflexivity | ].
    do 7 (try destruct x as [x | x | ]); try reflexivity. congruence.
  - destruct (N.eq_dec x 46) as [-> | Hx].
    + destruct (N.eq_dec y 46) as [-> | Hy]; [ exfalso; apply Hd; reflexivity | ]. destruct y as [ | y]; [ reflexivity | ].
      do 7 (try destruct y as [y | y | ]); try reflexivity. congruence.
    + destruct x as [ | x]; [ reflexivity | ]. do 7 (try destruct x as [x | x | ]); try reflexivity. congruence.
  - destruct x as [ | x]; [ reflexivity | ]. do 7 (try destruct x as [x | x | ]); try reflexivity.
    destruct y as [ | y]; [ reflexivity | ]. do 7 (try destruct y as [y | y | ]); reflexivity.
Qed.
Lemma upd_mid : forall A (a b : list A) x y, upd (a ++ x :: b) (length a) y = a ++ y :: b.
Proof. intros A a. induction a as [ | h a IH]; intros b x y; [ reflexivity | ]. cbn [app length upd]. f_equal. apply IH. Qed.
Lemma nth_mid : forall A (a b : list A) x d, nth (length a) (a ++ x :: b) d = x.
Proof. intros A a. induction a as [ | h a IH]; intros; [ reflexivity | apply IH ]. Qed.
(* the inner loop clears the last real component before i, if there is one *)
Lemma scan_ok : forall A B c R, Forall (fun c => real c = false) B ->
  (Forall (fun c => real c = false) A /\ scan (length A) (S (length B)) (length A + length B) (A ++ B ++ c :: R) = A ++ B ++ c :: R) \/
  (exists A1 x A2, A = A1 ++ x :: A2 /\ real x = true /\ Forall (fun c => real c = false) A2 /\
     scan (length A) (S (length B)) (length A + length B) (A ++ B ++ c :: R) = A1 ++ [] :: A2 ++ B ++ [] :: R).
Proof.
  intros A. induction A as [ | y A IH] using rev_ind; intros B c R F; [ left; split; [ constructor | reflexivity ] | ].
  rewrite app_length. cbn [length]. rewrite Nat.add_1_r. cbn [scan].
  replace (S (length A) + length B - S (length B))%nat with (length A) by lia. rewrite <- app_assoc. cbn [app]. rewrite nth_mid. fold (real y).
  destruct (real y) eqn:Ry.
  - right. exists A, y, []. split; [ reflexivity | ]. split; [ exact Ry | ]. split; [ constructor | ]. rewrite upd_mid.
    replace (A ++ [] :: B ++ c :: R) with ((A ++ [] :: B) ++ c :: R) by (rewrite <- app_assoc; reflexivity).
    replace (S (length A) + length B)%nat with (length (A ++ [] :: B)) by (rewrite app_length; cbn [length]; lia).
    rewrite upd_mid, <- app_assoc. reflexivity.
  - destruct (IH (y :: B) c R ltac:(constructor; assumption)) as [[Fa E] | (A1 & x & A2 & -> & Rx & F2 & E)]; cbn [length] in E; rewrite <- Nat.add_succ_comm in E.
    + left. split; [ apply Forall_app; split; [ exact Fa | constructor; [ exact Ry | constructor ] ] | exact E ].
    + right. exists A1, x, (A2 ++ [y]). split; [ rewrite <- app_assoc; reflexivity | ]. split; [ exact Rx | ].
      split; [ apply Forall_app; split; [ exact F2 | constructor; [ exact Ry | constructor ] ] | ]. rewrite <- (app_assoc A2 [y]). exact E.
Qed.
Lemma filter_unreal : forall l, Forall (fun c => real c = false) l -> Forall (fun c => c = dotdot) (filter ne l).
Proof.
  intros l F. induction F as [ | c l H F IH]; [ constructor | ]. destruct (real_cases c) as [[-> _] | [[-> _] | (_ & _ & E)]]; [ exact IH | constructor; [ reflexivity | exact IH ] | congruence ].
Qed.
Lemma all_dd : forall l, Forall (fun c => c = dotdot) l -> l = repeat dotdot (length l).
Proof. intros l F. induction F as [ | c l H F IH]; [ reflexivity | ]. cbn [length repeat]. rewrite H. f_equal. exact IH. Qed.
Lemma resolve_ok : forall R P p, Forall (fun c => c <> [46]) R -> Forall (fun c => real c = true) (snd p) -> filter ne P = stack p ->
  filter ne (resolve (length R) (length P) (P ++ R)) = stack (fold_left go R p).
Proof.
  intros R. induction R as [ | c R IH]; intros P p FR Fp E; [ cbn [length resolve fold_left]; rewrite app_nil_r; exact E | ].
  inversion FR as [ | ? ? Hc FR']; subst. cbn [length resolve fold_left]. rewrite nth_mid.
  assert (K : forall Q q, length Q = S (length P) -> go p c = q -> Forall (fun c => real c = true) (snd q) -> filter ne Q = stack q ->
    filter ne (resolve (length R) (S (length P)) (Q ++ R)) = stack (fold_left go R (go p c))).
  { intros Q q L <- F1 F2. rewrite <- L. apply IH; assumption. }
  destruct (real_cases c) as [[-> Rc] | [[-> Rc] | (Hn & Hd & Rc)]].
  - rewrite sleq_no by discriminate. cbn [negb]. replace (P ++ [] :: R) with ((P ++ [[]]) ++ R) by (rewrite <- app_assoc; reflexivity).
    apply (K _ p); [ rewrite app_length; cbn [length]; lia | reflexivity | exact Fp | ]. rewrite filter_app. cbn [filter ne length Nat.ltb Nat.leb]. rewrite app_nil_r. exact E.
  - rewrite sleq_refl. cbn [negb]. destruct (scan_ok P [] dotdot R (Forall_nil _)) as [[Fa S1] | (A1 & x & A2 & EP & Rx & F2 & S1)];
      cbn [app length] in S1; rewrite Nat.add_0_r in S1; rewrite S1.
    + assert (D : snd p = []).
      { assert (G := filter_unreal P Fa). rewrite E in G. unfold stack in G. apply Forall_app in G. destruct G as [_ G]. destruct (snd p) as [ | y d]; [ reflexivity | ].
        inversion G; inversion Fp; subst. discriminate. }
      replace (P ++ dotdot :: R) with ((P ++ [dotdot]) ++ R) by (rewrite <- app_assoc; reflexivity).
      apply (K _ (S (fst p), [])); [ rewrite app_length; cbn [length]; lia | unfold go, dotdot; rewrite D; reflexivity | constructor | ].
      rewrite filter_app, E. unfold stack. cbn [fst snd filter ne dotdot length Nat.ltb Nat.leb]. rewrite D, !app_nil_r. fold dotdot.
      cbn [repeat]. symmetry. apply (repeat_cons (fst p) dotdot).
    + rewrite EP, filter_app in E. assert (Nx : ne x = true) by (destruct x; [ discriminate Rx | reflexivity ]).
      cbn [filter] in E. rewrite Nx in E. assert (G := filter_unreal A2 F2). unfold stack in E.
      destruct (snd p) as [ | y0 d0] eqn:D0 using rev_ind.
      { exfalso. rewrite app_nil_r in E. assert (I : In x (repeat dotdot (fst p))) by (rewrite <- E; apply in_or_app; right; left; reflexivity).
        apply repeat_spec in I. subst x. discriminate Rx. }
      clear IHd0. apply Forall_app in Fp. destruct Fp as [Fd Fy]. inversion Fy as [ | ? ? Ry _]; subst.
      destruct (filter ne A2) as [ | z f] eqn:D2 using rev_ind.
      * rewrite app_assoc in E. apply app_inj_tail in E. destruct E as [E ->].
        replace (A1 ++ [] :: A2 ++ [] :: R) with ((A1 ++ [] :: A2 ++ [[]]) ++ R) by (rewrite <- app_assoc; cbn [app]; rewrite <- app_assoc; reflexivity).
        apply (K _ (fst p, d0)).
        -- rewrite !app_length. cbn [length]. rewrite app_length. cbn [length]. lia.
        -- unfold go, dotdot. rewrite D0. destruct (d0 ++ [y0]) eqn:W; [ destruct d0; discriminate W | ]. rewrite <- W, removelast_last. reflexivity.
        -- exact Fd.
        -- rewrite filter_app. cbn [filter ne length Nat.ltb Nat.leb]. rewrite filter_app, D2. cbn [filter ne length Nat.ltb Nat.leb app]. rewrite app_nil_r. exact E.
      * clear IHf. exfalso. apply Forall_app in G. destruct G as [_ G]. inversion G; subst.
        replace (filter ne A1 ++ x :: f ++ [dotdot]) with ((filter ne A1 ++ x :: f) ++ [dotdot]) in E by (rewrite <- app_assoc; reflexivity).
        rewrite app_assoc in E. apply app_inj_tail in E. destruct E as [_ <-]. discriminate Ry.
  - rewrite sleq_no by exact Hd. cbn [negb]. replace (P ++ c :: R) with ((P ++ [c]) ++ R) by (rewrite <- app_assoc; reflexivity).
    apply (K _ (fst p, snd p ++ [c])); [ rewrite app_length; cbn [length]; lia | apply go_real; assumption | apply Forall_app; split; [ exact Fp | constructor; [ exact Rc | constructor ] ] | ].
    rewrite filter_app, E. unfold stack. cbn [fst snd filter]. destruct c; [ congruence | ]. cbn [ne length Nat.ltb Nat.leb]. rewrite app_assoc. reflexivity.
Qed.
Lemma compact_ok : forall R D G, compact (length R) (length (D ++ G)) (length D) (D ++ G ++ R) = D ++ filter ne R.
Proof.
  intros R. induction R as [ | x R IH]; intros D G; cbn [length compact].
  - rewrite firstn_app_exact. cbn [filter]. symmetry. apply app_nil_r.
  - rewrite app_assoc, nth_mid, <- app_assoc. fold (ne x). cbn [filter]. destruct (ne x).
    + destruct G as [ | g G].
      * cbn [app]. rewrite upd_mid, app_nil_r. specialize (IH (D ++ [x]) []). rewrite app_nil_r, app_length in IH. cbn [length app] in IH.
        rewrite Nat.add_1_r, <- !app_assoc in IH. exact IH.
      * cbn [app]. rewrite upd_mid. specialize (IH (D ++ [x]) (G ++ [x])). rewrite !app_length in IH. cbn [length] in IH. rewrite <- !app_assoc in IH. cbn [app] in IH.
        rewrite app_length. cbn [length]. rewrite Nat.add_1_r in IH. replace (S (length D + S (length G)))%nat with (S (length D) + (length G + 1))%nat by lia. exact IH.
    + specialize (IH D (G ++ [x])). rewrite app_assoc, app_length in IH. cbn [length] in IH. rewrite Nat.add_1_r in IH.
      rewrite <- app_assoc in IH. exact IH.
Qed.
Lemma undot_go : forall ps p, fold_left go (undot ps) p = fold_left go ps p.
Proof.
  intros ps. induction ps as [ | c ps IH]; intros p; [ reflexivity | ]. cbn [undot map fold_left]. fold (undot ps).
  destruct (sleq c [46]) eqn:E; [ | apply IH ]. apply sleq_spec in E. subst c. apply IH.
Qed.
Lemma undot_no : forall ps, Forall (fun c => c <> [46]) (undot ps).
Proof.
  intros ps. apply Forall_forall. intros c I. apply in_map_iff in I. destruct I as (x & <- & _). destruct (sleq x [46]) eqn:E; [ discriminate | ].
  intros ->. discriminate E.
Qed.
Lemma go_keeps : forall ps p, Forall (fun c => real c = true) (snd p) -> Forall (fun c => c <> [46]) ps -> Forall (fun c => real c = true) (snd (fold_left go ps p)).
Proof.
  intros ps. induction ps as [ | c ps IH]; intros p F F2; [ exact F | ]. inversion F2; subst. cbn [fold_left]. apply IH; [ | assumption ].
  destruct (real_cases c) as [[-> _] | [[-> _] | (_ & _ & R)]]; [ exact F | | ].
  - unfold go, dotdot. destruct (snd p) as [ | a d] eqn:E; [ constructor | ]. cbn [snd]. apply Forall_forall. intros y I. rewrite Forall_forall in F. apply F.
    rewrite (app_removelast_last [] (l := a :: d)) by discriminate. apply in_or_app. left. exact I.
  - rewrite go_real by assumption. apply Forall_app. split; [ exact F | constructor; [ exact R | constructor ] ].
Qed.
Lemma dropup_ok : forall u d, Forall (fun c => real c = true) d -> dropup (repeat dotdot u ++ d) = d.
Proof.
  intros u d F. induction u as [ | u IH]; cbn [repeat app].
  - destruct F as [ | c d H F]; [ reflexivity | ]. cbn [dropup]. destruct (real_cases c) as [[_ E] | [[_ E] | (_ & Hd & _)]]; [ congruence | congruence | ].
    rewrite sleq_no by exact Hd. reflexivity.
  - cbn [dropup]. rewrite sleq_refl. exact IH.
Qed.
Lemma absolute_eq : forall p, ((0 <? length p)%nat && sleq (firstn 1 p) [47])%bool = absolute p.
Proof.
  intros [ | c p]; [ reflexivity | ]. cbn [length firstn]. destruct (N.eq_dec c 47) as [-> | H]; [ reflexivity | ].
  rewrite sleq_no by congruence. cbn [Nat.ltb Nat.leb andb]. unfold absolute. destruct c as [ | c]; [ reflexivity | ].
  do 7 (try destruct c as [c | c | ]); try reflexivity. congruence.
Qed.
Lemma pieces_cons : forall c s, c <> 47 -> pieces (c :: s) = match pieces s with p :: ps => (c :: p) :: ps | [] => [[c]] end.
Proof.
  intros c s H. cbn [pieces]. destruct c as [ | c]; [ reflexivity | ]. do 7 (try destruct c as [c | c | ]); try reflexivity. congruence.
Qed.
Lemma pieces_ne : forall s, pieces s <> [].
Proof.
  intros s. induction s as [ | c s IH]; [ discriminate | ]. destruct (N.eq_dec c 47) as [-> | H]; [ discriminate | ]. rewrite pieces_cons by exact H.
  destruct (pieces s); discriminate.
Qed.
Lemma pieces_app : forall a b, pieces (a ++ 47 :: b) = pieces a ++ pieces b.
Proof.
  intros a b. induction a as [ | c a IH]; [ reflexivity | ]. cbn [app]. destruct (N.eq_dec c 47) as [-> | H].
  - cbn [pieces app]. f_equal. exact IH.
  - rewrite !pieces_cons by exact H. rewrite IH. destruct (pieces a) as [ | p ps] eqn:E; [ destruct (pieces_ne a E) | reflexivity ].
Qed.
Lemma pieces_no : forall a, ~ In 47 a -> pieces a = [a].
Proof.
  intros a. induction a as [ | c a IH]; intros H; [ reflexivity | ]. rewrite pieces_cons by (intros ->; apply H; left; reflexivity).
  rewrite IH by (intros I; apply H; right; exact I). reflexivity.
Qed.
Lemma pieces_clean : forall s, Forall (fun c => ~ In 47 c) (pieces s).
Proof.
  intros s. induction s as [ | c s IH]; [ repeat constructor; intros [] | ]. destruct (N.eq_dec c 47) as [-> | H]; [ constructor; [ intros [] | exact IH ] | ].
  rewrite pieces_cons by exact H. destruct IH as [ | p ps Hp F]; constructor.
  - intros [E | []]. congruence.
  - constructor.
  - intros [E | I]; [ congruence | exact (Hp I) ].
  - exact F.
Qed.
Lemma pieces_joined : forall l, l <> [] -> pieces (joined l [47]) = concat (map pieces l).
Proof.
  intros l. induction l as [ | x l IH]; intros H; [ congruence | ]. destruct l as [ | y l]; [ cbn [joined map concat]; symmetry; apply app_nil_r | ].
  change (joined (x :: y :: l) [47]) with (x ++ 47 :: joined (y :: l) [47]). rewrite pieces_app, IH by discriminate. reflexivity.
Qed.
Lemma concat_single : forall l : list (list N), Forall (fun c => ~ In 47 c) l -> concat (map pieces l) = l.
Proof. intros l F. induction F as [ | c l H F IH]; [ reflexivity | ]. cbn [map concat]. rewrite pieces_no by exact H. rewrite IH. reflexivity. Qed.
Lemma split_pieces : forall s, exists ps, strsplit (S (length s)) s [47] = Done ps /\ walk ps = walk (pieces s).
Proof.
  intros s. destruct (split_correct s [47] ltac:(discriminate)) as (ps & E & _ & Hn & J & O). exists ps. split; [ exact E | ].
  destruct s as [ | c s]; [ rewrite Hn by reflexivity; reflexivity | ]. f_equal. rewrite <- J, pieces_joined.
  - symmetry. apply concat_single. apply Forall_forall. intros p I N. apply (O p I). apply in_split in N. destruct N as (a & b & ->). exists (length a), a, b. split; reflexivity.
  - intros ->. discriminate J.
Qed.
Lemma norm_ok : forall junk p, pathnorm junk p = Done (show (leads p)).
Proof.
  intros junk p. unfold pathnorm. destruct (split_pieces p) as (ps & -> & W). cbv zeta.
  assert (C : compact (length (resolve (length (undot ps)) 0 (undot ps))) 0 0 (resolve (length (undot ps)) 0 (undot ps)) = stack (walk (pieces p))).
  { assert (G := compact_ok (resolve (length (undot ps)) 0 (undot ps)) [] []). cbn [app length] in G. rewrite G. rewrite <- W.
    assert (G2 := resolve_ok (undot ps) [] (O, []) (undot_no ps) (Forall_nil _) eq_refl). cbn [app length] in G2. rewrite G2, undot_go. reflexivity. }
  rewrite C. rewrite absolute_eq, !strjoin_spec.
  assert (F : Forall (fun c => real c = true) (snd (walk (pieces p)))).
  { rewrite <- W. unfold walk. rewrite <- undot_go. apply go_keeps; [ constructor | apply undot_no ]. }
  unfold leads, place_of, show. destruct (absolute p).
  - unfold stack. rewrite dropup_ok by exact F. reflexivity.
  - unfold stack. fold dotdot. destruct (repeat dotdot (fst (walk (pieces p))) ++ snd (walk (pieces p))); reflexivity.
Qed.

(* C97: pathnorm gives the shortest text for the place its argument leads to *)
Theorem C97_norm : forall junk p, pathnorm junk p = Done (show (leads p)).
Proof. exact norm_ok. Qed.
Definition good (c : list N) : Prop := c <> [] /\ c <> [46] /\ c <> [46; 46] /\ ~ In 47 c.
Lemma go_good : forall p c, good c -> go p c = (fst p, snd p ++ [c]).
Proof.
  intros p c (H1 & H2 & H3 & _). apply go_real; [ exact H2 | ]. destruct (real_cases c) as [[E _] | [[E _] | (_ & _ & R)]]; [ contradiction | contradiction | exact R ].
Qed.
Lemma walk_good : forall ps p, Forall good (snd p) -> Forall (fun c => ~ In 47 c) ps -> Forall good (snd (fold_left go ps p)).
Proof.
  intros ps. induction ps as [ | c ps IH]; intros p F F2; [ exact F | ]. inversion F2 as [ | ? ? Hc F2']; subst. cbn [fold_left]. apply IH; [ | exact F2' ].
  destruct (list_eq_dec N.eq_dec c [46]) as [-> | H46]; [ exact F | ].
  destruct (real_cases c) as [[-> _] | [[-> _] | (Hn & Hd & R)]]; [ exact F | | ].
  - unfold go, dotdot. destruct (snd p) as [ | a d] eqn:E; [ constructor | ]. cbn [snd]. apply Forall_forall. intros y I. rewrite Forall_forall in F. apply F.
    rewrite (app_removelast_last [] (l := a :: d)) by discriminate. apply in_or_app. left. exact I.
  - rewrite go_real by assumption. apply Forall_app. split; [ exact F | constructor; [ | constructor ] ]. repeat split; assumption.
Qed.
Lemma go_names : forall d p, Forall good d -> fold_left go d p = (fst p, snd p ++ d).
Proof.
  intros d. induction d as [ | c d IH]; intros p F; [ rewrite app_nil_r; destruct p; reflexivity | ]. inversion F; subst. cbn [fold_left].
  rewrite go_good by assumption. rewrite IH by assumption. cbn [fst snd]. rewrite <- app_assoc. reflexivity.
Qed.
Lemma go_ups : forall n u, fold_left go (repeat [46; 46] n) (u, []) = ((u + n)%nat, []).
Proof. intros n. induction n as [ | n IH]; intros u; [ rewrite Nat.add_0_r; reflexivity | ]. cbn [repeat fold_left go fst snd]. rewrite IH. f_equal. lia. Qed.
Lemma good_clean : forall d, Forall good d -> Forall (fun c => ~ In 47 c) d.
Proof. intros d F. eapply Forall_impl; [ | exact F ]. intros c (_ & _ & _ & H). exact H. Qed.
Lemma leads_show : forall root u d, Forall good d -> (root = true -> u = O) -> leads (show (root, (u, d))) = (root, (u, d)).
Proof.
  intros root u d F H. unfold leads, place_of, show. destruct root.
  - rewrite H by reflexivity. cbn [absolute pieces]. unfold walk. cbn [fold_left go]. destruct d as [ | c d]; [ reflexivity | ].
    rewrite pieces_joined, concat_single by (try discriminate; apply good_clean; exact F). rewrite go_names by exact F. reflexivity.
  - assert (Fc : Forall (fun c => c <> [] /\ ~ In 47 c) (repeat [46; 46] u ++ d)).
    { apply Forall_app. split.
      - apply Forall_forall. intros c I. apply repeat_spec in I. subst c. split; [ discriminate | ]. intros [E | [E | []]]; discriminate E.
      - eapply Forall_impl; [ | exact F ]. intros c (? & _ & _ & ?). split; assumption. }
    assert (W : walk (repeat [46; 46] u ++ d) = (u, d)).
    { unfold walk. rewrite fold_left_app, go_ups, go_names by exact F. reflexivity. }
    destruct (repeat [46; 46] u ++ d) as [ | c l] eqn:E.
    + rewrite <- W. reflexivity.
    + assert (A : absolute (joined (c :: l) [47]) = false).
      { inversion Fc as [ | ? ? [Hn Hi] _]; subst. destruct c as [ | x c]; [ congruence | ]. assert (X : x <> 47) by (intros ->; apply Hi; left; reflexivity).
        assert (J : exists r, joined ((x :: c) :: l) [47] = x :: r) by (destruct l; eexists; reflexivity). destruct J as [r ->].
        rewrite <- absolute_eq. cbn [length firstn]. rewrite sleq_no by congruence. reflexivity. }
      rewrite A. rewrite pieces_joined, concat_single.
      * rewrite W. reflexivity.
      * eapply Forall_impl; [ | exact Fc ]. intros ? [_ ?]. assumption.
      * discriminate.
Qed.
Lemma place_ok : forall root ps, Forall (fun c => ~ In 47 c) ps -> leads (show (place_of root ps)) = place_of root ps.
Proof.
  intros root ps F. unfold place_of. apply leads_show; [ | intros ->; reflexivity ]. apply walk_good; [ constructor | exact F ].
Qed.

(* C97: the result leads to the same place; normalising it again changes nothing; two paths have the same result exactly if
   they lead to the same place *)
Theorem C97_same : forall junk p, exists q, pathnorm junk p = Done q /\ leads q = leads p /\ pathnorm junk q = Done q.
Proof.
  intros junk p. exists (show (leads p)). rewrite !norm_ok. assert (L : leads (show (leads p)) = leads p) by (apply place_ok, pieces_clean).
  rewrite L. repeat split.
Qed.
Theorem C97_canonical : forall junk p p', pathnorm junk p = pathnorm junk p' <-> leads p = leads p'.
Proof.
  intros junk p p'. rewrite !norm_ok. split; [ | intros ->; reflexivity ]. intros E. assert (E2 : show (leads p) = show (leads p')) by congruence.
  transitivity (leads (show (leads p))); [ symmetry; apply place_ok, pieces_clean | ]. rewrite E2. apply place_ok, pieces_clean.
Qed.
(* C97: what the result looks like: no empty component and none of a single dot, two dots only in front and never behind
   the root *)
Theorem C97_shape : forall junk p, exists up down, pathnorm junk p = Done (show (absolute p, (up, down))) /\ (absolute p = true -> up = O) /\
  Forall (fun c => c <> [] /\ c <> [46] /\ c <> [46; 46] /\ ~ In 47 c) down.
Proof.
  intros junk p. exists (fst (snd (leads p))), (snd (snd (leads p))). rewrite norm_ok. unfold leads, place_of. cbn [fst snd]. split; [ reflexivity | ].
  split; [ intros ->; reflexivity | ]. apply (walk_good (pieces p) (O, [])); [ constructor | apply pieces_clean ].
Qed.

(* C98: pathjoin leads where the parts lead one after the other; it is absolute exactly if the first part that is not empty is *)
Lemma dropempty_ok : forall l, walk (concat (map pieces (dropempty l))) = walk (concat (map pieces l)) /\ concat (dropempty l) = concat l /\
  (dropempty l = [] \/ exists s r, dropempty l = s :: r /\ s <> []).
Proof.
  intros l. induction l as [ | s l (IH1 & IH2 & IH3)]; [ repeat split; left; reflexivity | ]. cbn [dropempty]. destruct s as [ | c s].
  - cbn [length Nat.eqb negb]. split; [ exact IH1 | ]. split; [ exact IH2 | exact IH3 ].
  - cbn [length Nat.eqb negb]. repeat split. right. exists (c :: s), l. split; [ reflexivity | discriminate ].
Qed.
Lemma clean_concat : forall l, Forall (fun c => ~ In 47 c) (concat (map pieces l)).
Proof. intros l. apply Forall_concat, Forall_map, Forall_forall. intros s _. apply pieces_clean. Qed.
Theorem C98_join : forall junk l, exists q, pathjoin junk l = Done q /\ q = show (place_of (absolute (concat l)) (concat (map pieces l))) /\
  leads q = place_of (absolute (concat l)) (concat (map pieces l)).
Proof.
  intros junk l. eexists. split; [ | split; [ reflexivity | apply place_ok, clean_concat ] ].
  unfold pathjoin. rewrite strjoin_spec, norm_ok. f_equal. f_equal. destruct (dropempty_ok l) as (W & C & H). unfold leads, place_of. rewrite <- W, <- C.
  destruct H as [E | (s & r & E & Hs)]; rewrite E.
  - reflexivity.
  - rewrite pieces_joined by discriminate. destruct s as [ | c s]; [ congruence | ].
    assert (A : absolute (joined ((c :: s) :: r) [47]) = absolute (concat ((c :: s) :: r))) by (rewrite <- !absolute_eq; destruct r; reflexivity).
    rewrite A. reflexivity.
Qed.
(* C98: joining two paths: what the first leads to, then the second from there; a slash in front of the second does not
   matter, unless the first is empty *)
Theorem C98_cat : forall junk a b, a <> [] -> exists q, pathcat junk a b = Done q /\
  leads q = (absolute a, (if absolute a then O else fst (fold_left go (pieces b) (walk (pieces a))), snd (fold_left go (pieces b) (walk (pieces a))))).
Proof.
  intros junk a b Ha. destruct (C98_join junk [a; b]) as (q & E & _ & L). exists q. split; [ exact E | ]. rewrite L. unfold place_of, walk.
  cbn [map concat]. rewrite !app_nil_r, fold_left_app. assert (A : absolute (a ++ b) = absolute a) by (destruct a; [ congruence | rewrite <- !absolute_eq; reflexivity ]).
  rewrite A. reflexivity.
Qed.

(* a/./b//../../../c is ../c, /../a/.. is / and the empty path is . *)
Example C97_met : pathnorm (fun _ => 7) [97; 47; 46; 47; 98; 47; 47; 46; 46; 47; 46; 46; 47; 46; 46; 47; 99] = Done [46; 46; 47; 99] /\
  pathnorm (fun _ => 7) [47; 46; 46; 47; 97; 47; 46; 46] = Done [47] /\ pathnorm (fun _ => 7) [] = Done [46] /\
  leads [97; 47; 46; 46; 47; 98] = leads [98] /\ leads [97] <> leads [47; 97].
Proof. repeat split; discriminate. Qed.
(* the parts, empty, /a, b/ and ../c, make /a/c *)
Example C98_met : pathjoin (fun _ => 7) [[]; [47; 97]; [98; 47]; [46; 46; 47; 99]] = Done [47; 97; 47; 99] /\ pathcat (fun _ => 7) [97] [47; 98] = Done [97; 47; 98].
Proof. repeat split. Qed.
Print Assumptions C97_norm.
Print Assumptions C97_same.
Print Assumptions C97_canonical.
Print Assumptions C97_shape.
Print Assumptions C98_join.
Print Assumptions C98_cat.
