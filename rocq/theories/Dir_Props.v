(* C99: dirname and basename. *)
From Verif Require Import Base ListX Sort_Model Utf_Model Str_Model Str_Spec Str_Proofs Str_Props Path_Spec Path_Model Path_Props Dir_Model.
Open Scope N_scope.

Lemma firstn_S_nth : forall n (p : list N), (n < length p)%nat -> firstn (S n) p = firstn n p ++ [nth n p 0].
Proof. intros n. induction n as [ | n IH]; intros [ | c p] H; cbn [length] in H; try lia; [ reflexivity | ]. cbn [firstn nth app]. f_equal. apply IH. lia. Qed.
Lemma endloop_ok : forall n p, (n <= length p)%nat -> exists k, firstn n p = firstn (endloop n p) p ++ repeat 47 k /\ (endloop n p <= n)%nat /\ ((0 < n)%nat -> (0 < endloop n p)%nat).
Proof.
  intros n p. induction n as [ | n IH]; intros H; [ exists O; cbn [endloop]; repeat split; lia | ]. cbn [endloop].
  destruct (Nat.ltb_spec 1 (S n)); [ | exists O; rewrite app_nil_r; repeat split; lia ].
  destruct (N.eqb_spec (nth n p 0) 47) as [E | E]; [ | exists O; rewrite app_nil_r; repeat split; lia ].
  destruct (IH ltac:(lia)) as (k & F & L & P). exists (S k). split; [ | lia ]. rewrite firstn_S_nth by lia. rewrite F, E, <- app_assoc. f_equal.
  symmetry. apply (repeat_cons k 47).
Qed.
Lemma trim_ok : forall p, exists k, p = firstn (endloop (length p) p) p ++ repeat 47 k /\ (firstn (endloop (length p) p) p = [] -> p = []) /\ (endloop (length p) p <= length p)%nat.
Proof.
  intros p. destruct (endloop_ok (length p) p (le_n _)) as (k & F & L & P). rewrite firstn_all in F. exists k. split; [ exact F | ]. split; [ | exact L ].
  intros E. destruct p as [ | c p]; [ reflexivity | ]. assert (G := firstn_length (endloop (length (c :: p)) (c :: p)) (c :: p)). rewrite E in G.
  specialize (P ltac:(cbn [length]; lia)). cbn [length] in *. lia.
Qed.
Lemma go_empties : forall k p, fold_left go (repeat [] k) p = p.
Proof. intros k. induction k as [ | k IH]; intros p; [ reflexivity | ]. cbn [repeat fold_left]. apply IH. Qed.
Lemma pieces_slashes : forall k, pieces (repeat 47 k) = repeat [] (S k).
Proof. intros k. induction k as [ | k IH]; [ reflexivity | ]. cbn [repeat pieces]. f_equal. exact IH. Qed.
Lemma walk_trail : forall x k, walk (pieces (x ++ repeat 47 k)) = walk (pieces x).
Proof.
  intros x [ | k]; [ rewrite app_nil_r; reflexivity | ]. cbn [repeat]. rewrite pieces_app, pieces_slashes. unfold walk. rewrite fold_left_app. apply go_empties.
Qed.
Lemma abs_app : forall a b, a <> [] -> absolute (a ++ b) = absolute a.
Proof. intros [ | c a] b H; [ congruence | ]. rewrite <- !absolute_eq. reflexivity. Qed.
Lemma abs_no : forall a, ~ In 47 a -> absolute a = false.
Proof. intros [ | c a] H; [ reflexivity | ]. rewrite <- absolute_eq. cbn [length firstn]. rewrite sleq_no; [ reflexivity | ]. intros E. injection E as ->. apply H. left. reflexivity. Qed.

(* C99: dirname and basename cut a path in two: the base name has no slash, the directory is never empty, and the base name
   seen from the directory is where the path leads *)
Theorem C99_cut : forall junk p, exists d b q, dirname p = Done d /\ basename p = Done b /\ d <> [] /\ ~ In 47 b /\
  pathcat junk d b = Done q /\ leads q = leads p.
Proof.
  intros junk p. destruct (trim_ok p) as (k & E & Z & L). unfold dirname, basename. cbv zeta. revert E Z.
  assert (Lx : length (firstn (endloop (length p) p) p) = endloop (length p) p) by (rewrite firstn_length; lia).
  revert Lx. generalize (firstn (endloop (length p) p) p). intros x. revert L. generalize (endloop (length p) p). intros e L Lx E Z. subst e. clear L.
  assert (FIN : forall d b, d <> [] -> ~ In 47 b -> absolute d = absolute p -> walk (pieces d ++ pieces b) = walk (pieces p) ->
    exists q, d <> [] /\ ~ In 47 b /\ pathcat junk d b = Done q /\ leads q = leads p).
  { intros d b Hd Hb A W. destruct (C98_cat junk d b Hd) as (q & Q & LQ). exists q. split; [ exact Hd | ]. split; [ exact Hb | ]. split; [ exact Q | ].
    rewrite LQ, A. unfold leads, place_of. unfold walk in *. rewrite <- W, fold_left_app. reflexivity. }
  assert (W0 : walk (pieces p) = walk (pieces x)) by (rewrite E; apply walk_trail).
  assert (S := strrfind_spec x [47]). destruct (strrfind x [47]) as [i | | ]; [ | | destruct S ].
  - destruct S as [(a & b & X & La) Last]. cbn [app] in X.
    assert (Hb : ~ In 47 b).
    { intros I. apply in_split in I. destruct I as (b1 & b2 & ->). assert (O : occurs_at x [47] (length (a ++ 47 :: b1))).
      { exists (a ++ 47 :: b1), b2. split; [ rewrite X, <- app_assoc; reflexivity | reflexivity ]. }
      apply Last in O. rewrite app_length in O. cbn [length] in O. lia. }
    assert (B : (i + 1 <=? length x)%nat = true /\ firstn (length x - (i + 1)) (skipn (i + 1) x) = b).
    { rewrite X. replace (a ++ 47 :: b) with ((a ++ [47]) ++ b) by (rewrite <- app_assoc; reflexivity).
      replace (i + 1)%nat with (length (a ++ [47])) by (rewrite app_length; cbn [length]; lia). rewrite skipn_app_exact, (app_length (a ++ [47]) b). split; [ apply Nat.leb_le; lia | ].
      apply firstn_all2. lia. }
    destruct B as [B1 B2]. rewrite B1, B2.
    assert (Ax : absolute p = absolute x) by (rewrite E; apply abs_app; rewrite X; destruct a; discriminate).
    destruct i as [ | i].
    + destruct a; [ | discriminate La ]. destruct (FIN [47] b) as (q & Q); [ discriminate | exact Hb | rewrite Ax, X; reflexivity | rewrite W0, X; reflexivity | ].
      exists [47], b, q. repeat split; apply Q.
    + assert (Fa : firstn (S i) x = a) by (rewrite X, <- La; apply firstn_app_exact).
      rewrite Fa. assert (Ha : a <> []) by (intros ->; discriminate La).
      destruct (FIN a b) as (q & Q); [ exact Ha | exact Hb | rewrite Ax, X; symmetry; apply abs_app, Ha | rewrite W0, X, pieces_app; reflexivity | ].
      exists a, b, q. repeat split; apply Q.
  - assert (Hx : ~ In 47 x) by (intros I; apply in_split in I; destruct I as (a & b & X); apply S; exists (length a), a, b; split; [ exact X | reflexivity ]).
    assert (Ap : absolute p = false).
    { destruct x as [ | c x]; [ rewrite (Z eq_refl); reflexivity | ]. rewrite E, abs_app by discriminate. apply abs_no, Hx. }
    rewrite firstn_all. destruct (FIN [46] x) as (q & Q); [ discriminate | exact Hx | rewrite Ap; reflexivity | rewrite W0; reflexivity | ].
    exists [46], x, q. repeat split; apply Q.
Qed.
(* C99: the base name is the text after the last slash, slashes at the end not counted *)
Theorem C99_base : forall a b k, b <> [] -> ~ In 47 b -> basename (a ++ 47 :: b ++ repeat 47 k) = Done b /\ basename (b ++ repeat 47 k) = Done b.
Proof.
  assert (T : forall x b k, b <> [] -> ~ In 47 b -> firstn (endloop (length (x ++ b ++ repeat 47 k)) (x ++ b ++ repeat 47 k)) (x ++ b ++ repeat 47 k) = x ++ b /\
    endloop (length (x ++ b ++ repeat 47 k)) (x ++ b ++ repeat 47 k) = length (x ++ b)).
  { intros x b k Hb Nb. rewrite app_assoc. assert (G : forall j p, p = (x ++ b) ++ repeat 47 k -> (j <= k)%nat -> endloop (length (x ++ b) + j) p = length (x ++ b)).
    { intros j p EP. induction j as [ | j IH]; intros Hj.
      - rewrite Nat.add_0_r. destruct (length (x ++ b)) as [ | n] eqn:Ln; [ reflexivity | ]. cbn [endloop]. destruct (1 <? S n)%nat; [ | reflexivity ].
        destruct (N.eqb_spec (nth n p 0) 47) as [C | C]; [ exfalso | reflexivity ]. rewrite EP, app_nth1 in C by lia.
        destruct b as [ | c b _] using rev_ind; [ congruence | ]. apply Nb. apply in_or_app. right. left. rewrite app_assoc, app_length in Ln. cbn [length] in Ln.
        rewrite app_assoc, app_nth2 in C by lia. replace (n - length (x ++ b))%nat with O in C by lia. exact C.
      - rewrite Nat.add_succ_r. cbn [endloop]. assert (1 <= length (x ++ b))%nat by (rewrite app_length; destruct b; [ congruence | cbn [length]; lia ]).
        rewrite (proj2 (Nat.ltb_lt 1 (S (length (x ++ b) + j)))) by lia.
        assert (V : nth (length (x ++ b) + j) p 0 = 47).
        { rewrite EP, app_nth2 by lia. apply (repeat_spec k 47), nth_In. rewrite repeat_length. lia. }
        rewrite V. cbn [N.eqb Pos.eqb]. apply IH. lia. }
    specialize (G k _ eq_refl (le_n _)). rewrite app_length, repeat_length. rewrite G. split; [ apply firstn_app_exact | reflexivity ]. }
  assert (R : forall x b k, b <> [] -> ~ In 47 b -> x = [] \/ (exists a, x = a ++ [47]) -> basename (x ++ b ++ repeat 47 k) = Done b).
  { intros x b k Hb Nb Hx. unfold basename. cbv zeta. destruct (T x b k Hb Nb) as [E1 E2]. rewrite E1, E2. assert (S := strrfind_spec (x ++ b) [47]).
    destruct (strrfind (x ++ b) [47]) as [i | | ]; [ | | destruct S ].
    - destruct S as [(p & q & X & Lp) Last]. cbn [app] in X.
      destruct Hx as [-> | (a & ->)].
      + exfalso. apply Nb. cbn [app] in X. rewrite X. apply in_or_app. right. left. reflexivity.
      + assert (I : i = length a).
        { assert (O : (length a <= i)%nat) by (apply Last; exists a, b; split; [ rewrite <- app_assoc; reflexivity | reflexivity ]).
          destruct (Nat.eq_dec i (length a)) as [ | D]; [ assumption | exfalso ]. apply Nb.
          assert (V : nth i ((a ++ [47]) ++ b) 0 = 47) by (rewrite X, <- Lp; apply nth_mid).
          assert (Bd : (i < length ((a ++ [47%N]) ++ b))%nat) by (rewrite X, app_length; cbn [length]; lia).
          rewrite !app_length in Bd. cbn [length] in Bd. rewrite app_nth2 in V by (rewrite app_length; cbn [length]; lia). rewrite <- V. apply nth_In.
          rewrite app_length. cbn [length]. lia. }
        subst i. rewrite I. replace (length a + 1)%nat with (length (a ++ [47])) by (rewrite app_length; reflexivity). rewrite skipn_app_exact.
        rewrite (proj2 (Nat.leb_le _ _)) by (rewrite (app_length (a ++ [47])); lia). f_equal. apply firstn_all2. rewrite (app_length (a ++ [47]) b). lia.
    - destruct Hx as [-> | (a & ->)]; [ cbn [app]; rewrite firstn_all; reflexivity | ]. exfalso. apply S. exists (length a), a, b. split; [ rewrite <- app_assoc; reflexivity | reflexivity ]. }
  intros a b k Hb Nb. split.
  - replace (a ++ 47 :: b ++ repeat 47 k) with ((a ++ [47]) ++ b ++ repeat 47 k) by (rewrite <- app_assoc; reflexivity). apply R; [ exact Hb | exact Nb | right; exists a; reflexivity ].
  - apply (R [] b k Hb Nb). left. reflexivity.
Qed.
(* /usr/lib// is /usr and lib *)
Example C99_met : dirname [47; 117; 115; 114; 47; 108; 105; 98; 47; 47] = Done [47; 117; 115; 114] /\ basename [47; 117; 115; 114; 47; 108; 105; 98; 47; 47] = Done [108; 105; 98] /\
  dirname [] = Done [46] /\ dirname [47] = Done [47] /\ basename [47] = Done [].
Proof. repeat split. Qed.
Print Assumptions C99_cut.
Print Assumptions C99_base.
