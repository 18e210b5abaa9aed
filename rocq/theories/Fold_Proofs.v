(* Folding keeps values. *)
From Coq Require Import Lia ZifyBool.
From Verif Require Import Base Word Fold_Spec Fold_Model.
Open Scope Z_scope.

Arguments okity : simpl never.
Lemma okw t : okity t -> 8 <= width t <= 64.
Proof. unfold okity. cbn [In]. lia. Qed.
Lemma norm_cong t z : okity t -> cong (width t) (norm t z) z.
Proof. intros H. apply okw in H. unfold norm. destruct (signed t); [apply swrap_cong|apply uwrap_cong]; lia. Qed.
Lemma norm_eq t a b : okity t -> (norm t a = norm t b <-> cong (width t) a b).
Proof. intros H. apply okw in H. unfold norm. destruct (signed t); [apply swrap_eq; lia|apply uwrap_eq]. Qed.
Lemma norm_norm t z : okity t -> norm t (norm t z) = norm t z.
Proof. intros H. apply norm_eq; [exact H|]. now apply norm_cong. Qed.
Lemma vlong_cong z : cong 64 (vlong z) z.
Proof. apply swrap_cong. lia. Qed.
Lemma norm_vlong t z : okity t -> norm t (vlong z) = norm t z.
Proof. intros H. apply norm_eq; [exact H|]. apply (cong_le _ 64); [apply okw in H; lia|apply vlong_cong]. Qed.
Lemma norm_u64 t z : okity t -> norm t (uwrap 64 z) = norm t z.
Proof. intros H. apply norm_eq; [exact H|]. apply (cong_le _ 64); [apply okw in H; lia|apply uwrap_cong; lia]. Qed.
Lemma norm_narrow t u z : okity t -> okity u -> width t <= width u -> norm t (norm u z) = norm t z.
Proof. intros Ht Hu L. apply norm_eq; [exact Ht|]. apply (cong_le _ (width u)); [apply okw in Ht; lia|now apply norm_cong]. Qed.
Lemma norm_small t k : okity t -> 0 <= k < 128 -> norm t k = k.
Proof.
  intros H R. apply okw in H. unfold norm. assert (2 ^ 8 <= 2 ^ width t) by (apply Z.pow_le_mono_r; lia). assert (2 ^ 7 <= 2 ^ (width t - 1)) by (apply Z.pow_le_mono_r; lia).
  destruct (signed t); [apply swrap_small; lia|apply uwrap_small; lia].
Qed.
Lemma norm_between t u z : okity t -> norm t u = u -> 0 <= z <= u \/ u <= z <= 0 -> norm t z = z.
Proof.
  intros H E R. apply okw in H. unfold norm in *. pose proof (pow2_pos (width t) ltac:(lia)). pose proof (pow2_pos (width t - 1) ltac:(lia)). destruct (signed t).
  - pose proof (swrap_range (width t) u ltac:(lia)). apply swrap_small; lia.
  - pose proof (uwrap_range (width t) u ltac:(lia)). apply uwrap_small; lia.
Qed.
Lemma cong_land w a b c d : 0 <= w -> cong w a b -> cong w c d -> cong w (Z.land a c) (Z.land b d).
Proof. intros W H1 H2. rewrite cong_bits in * by exact W. intros n Hn. rewrite !Z.land_spec, H1, H2 by exact Hn. reflexivity. Qed.
Lemma cong_lor w a b c d : 0 <= w -> cong w a b -> cong w c d -> cong w (Z.lor a c) (Z.lor b d).
Proof. intros W H1 H2. rewrite cong_bits in * by exact W. intros n Hn. rewrite !Z.lor_spec, H1, H2 by exact Hn. reflexivity. Qed.
Lemma cong_lxor w a b c d : 0 <= w -> cong w a b -> cong w c d -> cong w (Z.lxor a c) (Z.lxor b d).
Proof. intros W H1 H2. rewrite cong_bits in * by exact W. intros n Hn. rewrite !Z.lxor_spec, H1, H2 by exact Hn. reflexivity. Qed.
Lemma cong_shl w a b k : 0 <= w -> 0 <= k -> cong w a b -> cong w (Z.shiftl a k) (Z.shiftl b k).
Proof. intros W K H. rewrite !Z.shiftl_mul_pow2 by exact K. apply cong_mul; [exact W|exact H|apply cong_refl]. Qed.
Lemma ity_eqb_eq a b : ity_eqb a b = true -> a = b.
Proof. destruct a, b. unfold ity_eqb. cbn. rewrite Bool.andb_true_iff, Z.eqb_eq, Bool.eqb_true_iff. intros [-> ->]. reflexivity. Qed.
Lemma ity_eqb_refl a : ity_eqb a a = true.
Proof. unfold ity_eqb. now rewrite Z.eqb_refl, Bool.eqb_reflx. Qed.
Lemma retype_same e : retype e (ty e) = e.
Proof. now destruct e. Qed.
Lemma ty_retype e t : ty (retype e t) = t.
Proof. now destruct e. Qed.

Section P.
Variables (results : nat -> Z -> Z) (env : nat -> Z) (consts : nat -> option expr).
Notation eval := (eval results env). Notation fold := (fold consts). Notation exactlit := (exactlit consts). Notation fits := (fits consts).
(* the constants have their initialisers' types and values *)
Fixpoint okconsts (e : expr) : Prop :=
  match e with
  | Lit _ _ | Chr _ _ => True
  | Var t x => forall i, consts x = Some i -> ty i = t /\ wt i /\ calls i = false /\ eval i = Some (norm t (env x), [])
  | Neg _ a | Cast _ a | Call _ _ a => okconsts a
  | Bin _ _ a b => okconsts a /\ okconsts b
  end.
Lemma eval_lit e k : wt e -> getintlit e = Some k -> eval e = Some (norm (ty e) k, []).
Proof. intros W G. destruct e; try discriminate; cbn in *; injection G as <-; [now rewrite norm_vlong by tauto|reflexivity]. Qed.
Lemma eval_val k t : okity t -> eval (val k t) = Some (norm t k, []).
Proof. intros H. cbn. now rewrite norm_u64. Qed.
Lemma wt_val k t : okity t -> wt (val k t).
Proof. cbn. tauto. Qed.
Lemma wt_ty e : wt e -> okity (ty e).
Proof. destruct e; cbn; tauto. Qed.
Lemma isintval_eval e k : wt e -> isintval e k = true -> 0 <= k < 128 -> eval e = Some (k, []).
Proof.
  intros W H K. unfold isintval in H. destruct (getintlit e) as [j|] eqn:G; [|discriminate]. apply Z.eqb_eq in H. subst j. rewrite (eval_lit e k W G). now rewrite norm_small by (auto using wt_ty).
Qed.
Lemma eval_norm e : forall v l, wt e -> eval e = Some (v, l) -> norm (ty e) v = v.
Proof.
  induction e as [t k|t c|t x|t a IHa|o t a IHa b IHb|t a IHa|t f a IHa]; intros v l W H; pose proof (wt_ty _ W) as O; cbn [Fold_Spec.eval ty] in *.
  - injection H as <- <-. now apply norm_norm.
  - injection H as <- <-. now apply norm_norm.
  - injection H as <- <-. now apply norm_norm.
  - destruct (eval a) as [[u m]|]; [|discriminate]. injection H as <- <-. now apply norm_norm.
  - destruct (eval a) as [[u m]|] eqn:Ea; [|discriminate]. destruct (eval b) as [[w m']|] eqn:Eb; [|discriminate]. destruct (binop o t u w) as [r|] eqn:B; [|discriminate]. injection H as <- <-.
    assert (IHu : Some u = Some u -> norm t u = u) by (intros _; cbn in W; destruct W as (_ & <- & _ & Wa & _); now apply (IHa _ m)).
    destruct o; cbn in B; try (injection B as <-; now apply norm_norm).
    + destruct (w =? 0); [discriminate|]. destruct (norm t (Z.quot u w) =? Z.quot u w) eqn:Q; [|discriminate]. injection B as <-. now apply Z.eqb_eq.
    + destruct (w =? 0) eqn:W0; [discriminate|]. destruct (norm t (Z.quot u w) =? Z.quot u w) eqn:Q; [|discriminate]. injection B as <-.
      apply (norm_between t u); [exact O|exact (IHu eq_refl)|]. apply Z.eqb_neq in W0. destruct (Z.le_ge_cases 0 u).
      * left. pose proof (Z.rem_bound_pos u (Z.abs w) ltac:(lia) ltac:(lia)). rewrite Z.rem_abs_r in H0 by lia. split; [lia|]. rewrite <- (Z.rem_abs_r u w) by lia. rewrite Z.rem_mod_nonneg by lia. apply Z.mod_le; lia.
      * right. pose proof (Z.rem_opp_l u w W0). pose proof (Z.rem_bound_pos (- u) (Z.abs w) ltac:(lia) ltac:(lia)). rewrite Z.rem_abs_r in H1 by lia.
        assert (Z.rem (- u) w <= - u) by (rewrite <- (Z.rem_abs_r (- u) w) by lia; rewrite Z.rem_mod_nonneg by lia; apply Z.mod_le; lia). lia.
    + destruct ((0 <=? w) && (w <? width t)); [|discriminate]. injection B as <-. now apply norm_norm.
    + destruct ((0 <=? w) && (w <? width t)) eqn:R; [|discriminate]. injection B as <-. apply (norm_between t u); [exact O|exact (IHu eq_refl)|].
      rewrite Z.shiftr_div_pow2 by lia. pose proof (Z.pow_pos_nonneg 2 w ltac:(lia) ltac:(lia)). destruct (Z.le_ge_cases 0 u).
      * left. split; [apply Z.div_pos; lia|]. apply Z.div_le_upper_bound; nia.
      * right. split; [apply Z.div_le_lower_bound; nia|]. apply Z.div_le_upper_bound; nia.
  - destruct (eval a) as [[u m]|]; [|discriminate]. injection H as <- <-. now apply norm_norm.
  - destruct (eval a) as [[u m]|]; [|discriminate]. injection H as <- <-. now apply norm_norm.
Qed.

Lemma eval_calls e : forall v l, calls e = false -> eval e = Some (v, l) -> l = [].
Proof.
  induction e as [t k|t c|t x|t a IHa|o t a IHa b IHb|t a IHa|t f a IHa]; intros v l C H; cbn in C, H; try (injection H as _ <-; reflexivity).
  - destruct (eval a) as [[u m]|]; [|discriminate]. injection H as _ <-. eapply IHa; eauto.
  - apply Bool.orb_false_elim in C as [C1 C2]. destruct (eval a) as [[u m]|]; [|discriminate]. destruct (eval b) as [[w m']|]; [|discriminate]. destruct (binop o t u w); [|discriminate]. injection H as _ <-.
    now rewrite (IHa _ _ C1 eq_refl), (IHb _ _ C2 eq_refl).
  - destruct (eval a) as [[u m]|]; [|discriminate]. injection H as _ <-. eapply IHa; eauto.
  - discriminate.
Qed.
Definition shape (t : ity) (c : bool) (z : expr) : Prop := wt z /\ ty z = t /\ (c = false -> calls z = false).
Lemma shape_val k t c : okity t -> shape t c (val k t).
Proof. intros H. repeat split; auto. Qed.
Lemma signedval_ok k t z : signedval k t = FOk z -> z = val k t.
Proof. unfold signedval. destruct (fits64 k); congruence. Qed.
Lemma shiftval_ok b k t z : shiftval b k t = FOk z -> z = val k t /\ 0 <= b < 64.
Proof. unfold shiftval. destruct ((0 <=? b) && (b <? 64)) eqn:E; [|discriminate]. intros H. injection H as <-. split; [reflexivity|lia]. Qed.
Lemma foldbin_shape o t x y z : okity t -> shape t false x \/ True -> wt x -> wt y -> ty x = t -> ty y = t -> foldbin o t x y = FOk z -> shape t (calls x || calls y) z.
Proof.
  intros O _ Wx Wy Tx Ty H.
  assert (N : shape t (calls x || calls y) (Bin o t x y)) by (repeat split; auto; cbn; auto).
  assert (X : shape t (calls x || calls y) x) by (repeat split; auto; intros C; apply Bool.orb_false_elim in C; tauto).
  assert (Y : shape t (calls x || calls y) y) by (repeat split; auto; intros C; apply Bool.orb_false_elim in C; tauto).
  assert (V : forall k, shape t (calls x || calls y) (val k t)) by (intros k; now apply shape_val).
  unfold foldbin in H. destruct (getintlit x) as [a|], (getintlit y) as [b|]; destruct o;
    repeat match type of H with (if ?c then _ else _) = _ => destruct c end; try discriminate; try (injection H as <-); auto;
    try (apply signedval_ok in H; subst z; auto); apply shiftval_ok in H as [-> _]; auto.
Qed.
Lemma fold_shape e : forall x, wt e -> okconsts e -> fold e = FOk x -> shape (ty e) (calls e) x.
Proof.
  induction e as [t k|t c|t y|t a IHa|o t a IHa b IHb|t a IHa|t f a IHa]; intros x W K F; cbn [Fold_Model.fold] in F; pose proof (wt_ty _ W) as O; cbn [ty calls] in *.
  - injection F as <-. repeat split; auto.
  - injection F as <-. repeat split; auto.
  - injection F as <-. cbn in K. destruct (consts y) as [i|]; [|repeat split; auto]. destruct (K i eq_refl) as (A & B & C & _). repeat split; auto.
  - destruct (fold a) as [z| |] eqn:Fa; try discriminate. cbn in W, K. destruct W as (_ & Ta & Wa). destruct (IHa z Wa K eq_refl) as (A & B & C). destruct (getintlit z); [apply signedval_ok in F; subst; now apply shape_val|].
    injection F as <-. repeat split; cbn; auto. congruence.
  - destruct (fold a) as [z| |] eqn:Fa; try discriminate. destruct (fold b) as [z'| |] eqn:Fb; try discriminate. cbn in W, K. destruct W as (_ & Ta & Tb & Wa & Wb). destruct K as [Ka Kb].
    destruct (IHa z Wa Ka eq_refl) as (A & B & C). destruct (IHb z' Wb Kb eq_refl) as (A' & B' & C'). destruct (foldbin_shape o t z z' x O (or_intror Logic.I) A A' ltac:(congruence) ltac:(congruence) F) as (X & Y & Z).
    repeat split; auto. intros Q. apply Bool.orb_false_elim in Q as [Q1 Q2]. apply Z. now rewrite C, C'.
  - destruct (fold a) as [z| |] eqn:Fa; try discriminate. injection F as <-. cbn in W, K. destruct W as (_ & Wa). destruct (IHa z Wa K eq_refl) as (A & B & C). unfold foldcast.
    destruct (getintlit z) eqn:G; [destruct z; try discriminate G; repeat split; auto|]. destruct (ity_eqb (ty z) t) eqn:E; [apply ity_eqb_eq in E; subst t; rewrite retype_same; repeat split; auto|repeat split; auto].
  - destruct (fold a) as [z| |] eqn:Fa; try discriminate. injection F as <-. cbn in W, K. destruct W as (_ & Wa). destruct (IHa z Wa K eq_refl) as (A & B & C). repeat split; auto.
Qed.

Lemma foldbin_eval o t x y z u lx w ly r : okity t -> wt x -> wt y -> ty x = t -> ty y = t -> eval x = Some (u, lx) -> eval y = Some (w, ly) -> binop o t u w = Some r ->
  (o = Div \/ o = Mod \/ o = Shr -> forall k, getintlit x = Some k -> k = norm t k) -> (o = Div \/ o = Mod -> forall k, getintlit y = Some k -> k = norm t k) ->
  foldbin o t x y = FOk z -> exists l, eval z = Some (r, l) /\ ((o = Mul \/ o = Mod -> lx = [] /\ ly = []) -> l = lx ++ ly).
Proof.
  intros O Wx Wy Tx Ty Ex Ey B X1 X2 F.
  assert (Nu : norm t u = u) by (rewrite <- Tx; eapply eval_norm; eauto). assert (Nw : norm t w = w) by (rewrite <- Ty; eapply eval_norm; eauto).
  assert (KEEP : eval (Bin o t x y) = Some (r, lx ++ ly)) by (cbn [Fold_Spec.eval]; now rewrite Ex, Ey, B).
  assert (OW := okw t O).
  assert (Zx : forall k, isintval x k = true -> 0 <= k < 128 -> u = k /\ lx = []) by (intros k I R; rewrite (isintval_eval x k Wx I R) in Ex; injection Ex as <- <-; auto).
  assert (Zy : forall k, isintval y k = true -> 0 <= k < 128 -> w = k /\ ly = []) by (intros k I R; rewrite (isintval_eval y k Wy I R) in Ey; injection Ey as <- <-; auto).
  unfold foldbin in F. destruct (getintlit x) as [a|] eqn:Gx, (getintlit y) as [b|] eqn:Gy.
  1: {
    rewrite (eval_lit x a Wx Gx), Tx in Ex. injection Ex as <- <-. rewrite (eval_lit y b Wy Gy), Ty in Ey. injection Ey as <- <-.
    assert (Ca := norm_cong t a O). assert (Cb := norm_cong t b O). assert (W0 : 0 <= width t) by lia.
    assert (DONE : forall k, z = val k t -> norm t k = r -> exists l, eval z = Some (r, l) /\ ((o = Mul \/ o = Mod -> @nil (nat * Z) = [] /\ @nil (nat * Z) = []) -> l = [] ++ [])).
    { intros k -> <-. exists []. split; [now apply eval_val|reflexivity]. }
    destruct o; cbn [binop] in B.
    - apply signedval_ok in F. injection B as <-. apply (DONE _ F). apply norm_eq; [exact O|]. apply cong_sym. now apply cong_add.
    - injection F as <-. injection B as <-. eapply DONE; [reflexivity|]. apply norm_eq; [exact O|]. apply cong_sym. now apply cong_sub.
    - apply signedval_ok in F. injection B as <-. apply (DONE _ F). apply norm_eq; [exact O|]. apply cong_sym. now apply cong_mul.
    - rewrite <- (X1 ltac:(auto) a eq_refl) in B. rewrite <- (X2 ltac:(auto) b eq_refl) in B. destruct (b =? 0); [discriminate|]. apply signedval_ok in F.
      destruct (norm t (Z.quot a b) =? Z.quot a b) eqn:Q; [|discriminate]. injection B as <-. apply (DONE _ F). now apply Z.eqb_eq.
    - pose proof (eval_norm (Bin Mod t x y) r _ ltac:(cbn; auto) KEEP) as NR. cbn [ty] in NR.
      rewrite <- (X1 ltac:(auto) a eq_refl) in B. rewrite <- (X2 ltac:(auto) b eq_refl) in B. destruct (b =? 0); [discriminate|]. destruct (fits64 _); [|discriminate]. injection F as <-.
      destruct (norm t (Z.quot a b) =? Z.quot a b) eqn:Q; [|discriminate]. injection B as <-. eapply DONE; [reflexivity|exact NR].
    - apply shiftval_ok in F as [F R]. rewrite (norm_small t b O) in B by lia. destruct ((0 <=? b) && (b <? width t)); [|discriminate]. injection B as <-. apply (DONE _ F).
      apply norm_eq; [exact O|]. apply cong_shl; [lia|lia|]. apply cong_sym. eapply cong_trans; [exact Ca|]. apply cong_sym. apply (cong_le _ 64); [lia|apply uwrap_cong; lia].
    - pose proof (eval_norm (Bin Shr t x y) r _ ltac:(cbn; auto) KEEP) as NR. cbn [ty] in NR. apply shiftval_ok in F as [F R]. rewrite (norm_small t b O) in B by lia. rewrite <- (X1 ltac:(auto) a eq_refl) in B.
      destruct ((0 <=? b) && (b <? width t)); [|discriminate]. injection B as <-. apply (DONE _ F). exact NR.
    - injection F as <-. injection B as <-. eapply DONE; [reflexivity|]. apply norm_eq; [exact O|]. apply cong_sym. now apply cong_land.
    - injection F as <-. injection B as <-. eapply DONE; [reflexivity|]. apply norm_eq; [exact O|]. apply cong_sym. now apply cong_lor.
    - injection F as <-. injection B as <-. eapply DONE; [reflexivity|]. apply norm_eq; [exact O|]. apply cong_sym. now apply cong_lxor. }
  all: clear X1 X2 Gx Gy.
  all: assert (DX : r = u -> ly = [] -> exists l, eval x = Some (r, l) /\ ((o = Mul \/ o = Mod -> lx = [] /\ ly = []) -> l = lx ++ ly)) by (intros -> ->; exists lx; rewrite app_nil_r; auto).
  all: assert (DY : r = w -> lx = [] -> exists l, eval y = Some (r, l) /\ ((o = Mul \/ o = Mod -> lx = [] /\ ly = []) -> l = lx ++ ly)) by (intros -> ->; exists ly; auto).
  all: assert (DZ : forall e, o = Mul \/ o = Mod -> eval e = Some (r, []) -> exists l, eval e = Some (r, l) /\ ((o = Mul \/ o = Mod -> lx = [] /\ ly = []) -> l = lx ++ ly)) by (intros e Q E; exists []; split; [exact E|intros M; destruct (M Q) as [-> ->]; reflexivity]).
  all: destruct o; cbn [binop] in B;
    repeat match type of F with (if isintval ?e ?k then _ else _) = _ => let I := fresh "I" in destruct (isintval e k) eqn:I end; try discriminate; injection F as <-;
    try (exists (lx ++ ly); split; [exact KEEP|reflexivity]).
  all: repeat match goal with
    | I : isintval _ ?k = true |- _ => first [destruct (Zx k I ltac:(lia)) | destruct (Zy k I ltac:(lia))]; clear I end.
  all: assert (N0 : norm t 0 = 0) by (apply norm_small; [exact O|lia]).
  all: subst; rewrite ?Z.add_0_r, ?Z.add_0_l, ?Z.sub_0_r, ?Z.mul_0_r, ?Z.mul_0_l, ?Z.mul_1_r, ?Z.mul_1_l, ?Z.quot_1_r, ?Z.rem_1_r, ?Nu, ?Nw, ?N0 in B; try (change (1 =? 0) with false in B; cbv iota in B; rewrite ?Z.quot_1_r, ?Z.rem_1_r, ?Nu, ?Z.eqb_refl in B);
     try (injection B as <-).
  all: try (apply DX; congruence). all: try (apply DY; congruence).
  all: try (apply DZ; [auto|congruence]).
  all: try (apply DZ; [auto|rewrite (eval_val 0 _ O); congruence]).
Qed.

Theorem fold_eval e : forall x v l, wt e -> okconsts e -> fits e -> fold e = FOk x -> eval e = Some (v, l) ->
  exists l', eval x = Some (v, l') /\ (keepscalls e = true -> l' = l).
Proof.
  induction e as [t k|t c|t y|t a IHa|o t a IHa b IHb|t a IHa|t f a IHa]; intros x v l W K FT F E; cbn [Fold_Model.fold] in F; pose proof (wt_ty _ W) as O; cbn [ty] in O.
  - injection F as <-. exists l. auto.
  - injection F as <-. exists l. auto.
  - injection F as <-. cbn in K. destruct (consts y) as [i|] eqn:Ci; [|exists l; auto]. destruct (K i eq_refl) as (_ & _ & _ & Ei). cbn in E. injection E as <- <-. exists []. auto.
  - destruct (fold a) as [z| |] eqn:Fa; try discriminate. cbn [Fold_Spec.eval] in E. destruct (eval a) as [[u m]|] eqn:Ea; [|discriminate]. injection E as <- <-.
    cbn in W, K, FT. destruct W as (_ & Ta & Wa). destruct (IHa z u m Wa K FT eq_refl eq_refl) as (l' & Ez & Q). destruct (fold_shape a z Wa K Fa) as (Wz & Tz & _).
    destruct (getintlit z) as [k|] eqn:G.
    + apply signedval_ok in F. subst x. rewrite (eval_lit z k Wz G) in Ez. injection Ez as <- <-. exists []. split; [|auto]. rewrite eval_val by exact O. f_equal. f_equal. rewrite Tz, Ta.
      apply norm_eq; [exact O|]. apply cong_opp; [apply okw in O; lia|]. apply cong_sym. now apply norm_cong.
    + injection F as <-. exists l'. cbn [Fold_Spec.eval]. rewrite Ez. auto.
  - destruct (fold a) as [z| |] eqn:Fa; try discriminate. destruct (fold b) as [z'| |] eqn:Fb; try discriminate.
    cbn [Fold_Spec.eval] in E. destruct (eval a) as [[u m]|] eqn:Ea; [|discriminate]. destruct (eval b) as [[w m']|] eqn:Eb; [|discriminate]. destruct (binop o t u w) as [r|] eqn:B; [|discriminate]. injection E as <- <-.
    cbn in W, K, FT. destruct W as (_ & Ta & Tb & Wa & Wb). destruct K as [Ka Kb]. destruct FT as (Fta & Ftb & Fto).
    destruct (IHa z u m Wa Ka Fta eq_refl eq_refl) as (la & Eza & Qa). destruct (IHb z' w m' Wb Kb Ftb eq_refl eq_refl) as (lb & Ezb & Qb).
    destruct (fold_shape a z Wa Ka Fa) as (Wz & Tz & Cz). destruct (fold_shape b z' Wb Kb Fb) as (Wz' & Tz' & Cz').
    destruct (foldbin_eval o t z z' x u la w lb r O Wz Wz' ltac:(congruence) ltac:(congruence) Eza Ezb B) as (l' & Ex & Q); [| |exact F|].
    + intros Ho k Gk. assert (EA : exactlit a) by (destruct Ho as [-> |[-> | ->]]; tauto). rewrite <- Ta. exact (EA z k Fa Gk).
    + intros Ho k Gk. assert (EB : exactlit b) by (destruct Ho as [-> | ->]; tauto). rewrite <- Tb. exact (EB z' k Fb Gk).
    + exists l'. split; [exact Ex|]. intros KC. cbn in KC. apply andb_prop in KC as [KC KC2]. apply andb_prop in KC as [KC0 KC1]. rewrite (Qa KC1), (Qb KC2) in *. apply Q.
      intros Ho. assert (NC : calls a = false /\ calls b = false) by (destruct Ho as [-> | ->]; apply Bool.negb_true_iff, Bool.orb_false_elim in KC0; tauto).
      split; [exact (eval_calls a u m (proj1 NC) Ea)|exact (eval_calls b w m' (proj2 NC) Eb)].
  - destruct (fold a) as [z| |] eqn:Fa; try discriminate. injection F as <-. cbn [Fold_Spec.eval] in E. destruct (eval a) as [[u m]|] eqn:Ea; [|discriminate]. injection E as <- <-.
    cbn in W, K, FT. destruct W as (_ & Wa). destruct FT as [Fta Fto]. destruct (IHa z u m Wa K Fta eq_refl eq_refl) as (l' & Ez & Q). destruct (fold_shape a z Wa K Fa) as (Wz & Tz & _). unfold foldcast.
    destruct (getintlit z) as [k|] eqn:G.
    + rewrite (eval_lit z k Wz G) in Ez. injection Ez as <- <-. exists []. split; [|auto].
      assert (ER : eval (retype z t) = Some (norm t k, [])).
      { destruct z; try discriminate G; cbn in G |- *; injection G as <-; [now rewrite norm_vlong|reflexivity]. }
      rewrite ER. f_equal. f_equal. rewrite Tz. destruct Fto as [L|X]; [symmetry; apply norm_narrow; auto using wt_ty|]. f_equal. now apply (X z).
    + destruct (ity_eqb (ty z) t) eqn:I.
      * apply ity_eqb_eq in I. subst t. rewrite retype_same. exists l'. split; [|exact Q]. rewrite Ez. f_equal. f_equal. symmetry. eapply eval_norm; eauto.
      * exists l'. split; [|exact Q]. cbn [Fold_Spec.eval]. now rewrite Ez.
  - destruct (fold a) as [z| |] eqn:Fa; try discriminate. injection F as <-. cbn [Fold_Spec.eval] in E. destruct (eval a) as [[u m]|] eqn:Ea; [|discriminate]. injection E as <- <-.
    cbn in W, K, FT. destruct W as (_ & Wa). destruct (IHa z u m Wa K FT eq_refl eq_refl) as (l' & Ez & Q). cbn [Fold_Spec.eval]. rewrite Ez. eexists. split; [reflexivity|]. intros KC. now rewrite Q.
Qed.
Lemma ring_fits e : wt e -> ring e = true -> fits e.
Proof.
  induction e as [t k|t c|t y|t a IHa|o t a IHa b IHb|t a IHa|t f a IHa]; intros W R; cbn in W, R |- *; try exact Logic.I.
  - apply IHa; tauto.
  - destruct W as (_ & _ & _ & Wa & Wb). apply andb_prop in R as [R R2]. apply andb_prop in R as [R0 R1]. split; [auto|]. split; [auto|]. destruct o; try exact Logic.I; discriminate.
  - destruct W as (_ & W). apply andb_prop in R as [R1 R2]. split; [auto|left; lia].
  - apply IHa; tauto.
Qed.
(* fatal "division by zero" is reported only when some divisor is the constant zero *)
Fixpoint divzero (e : expr) : Prop :=
  match e with
  | Lit _ _ | Chr _ _ | Var _ _ => False
  | Neg _ a | Cast _ a | Call _ _ a => divzero a
  | Bin o _ a b => divzero a \/ divzero b \/ ((o = Div \/ o = Mod) /\ exists z, fold b = FOk z /\ isintval z 0 = true)
  end.
Lemma fold_divzero e : fold e = FDivZero -> divzero e.
Proof.
  induction e as [t k|t c|t y|t a IHa|o t a IHa b IHb|t a IHa|t f a IHa]; cbn; try discriminate.
  - destruct (fold a) as [z| |]; try discriminate; auto. destruct (getintlit z); [|discriminate]. unfold signedval. destruct (fits64 _); discriminate.
  - destruct (fold a) as [z| |]; try discriminate; [|auto]. destruct (fold b) as [z'| |]; try discriminate; [|auto]. intros H. right; right.
    unfold foldbin in H. assert (G : forall k, getintlit z' = Some k -> k =? 0 = isintval z' 0) by (intros k Q; unfold isintval; now rewrite Q).
    destruct (getintlit z) as [i|], (getintlit z') as [j|] eqn:Gz; destruct o; unfold signedval, shiftval in H;
      repeat match type of H with (if ?c then _ else _) = _ => let I := fresh "I" in destruct c eqn:I end; try discriminate; (split; [auto|]); exists z'; (split; [reflexivity|]); try assumption; rewrite <- (G _ eq_refl); assumption.
  - destruct (fold a) as [z| |]; try discriminate; auto.
  - destruct (fold a) as [z| |]; try discriminate; auto.
Qed.
Lemma divzero_fold e : divzero e -> forall x, fold e <> FOk x.
Proof.
  induction e as [t k|t c|t y|t a IHa|o t a IHa b IHb|t a IHa|t f a IHa]; cbn; try contradiction.
  - intros D x. destruct (fold a) as [z| |]; try discriminate. destruct (IHa D z eq_refl).
  - intros [D|[D|(O & z & E & Z)]] x.
    + destruct (fold a) as [z| |]; try discriminate. destruct (IHa D z eq_refl).
    + destruct (fold a) as [z| |]; try discriminate. destruct (fold b) as [z'| |]; try discriminate. destruct (IHb D z' eq_refl).
    + destruct (fold a) as [y| |]; try discriminate. rewrite E. unfold foldbin.
      unfold isintval in *. destruct (getintlit z) as [j|]; [|discriminate].
      destruct O as [-> | ->]; destruct (getintlit y); rewrite Z; discriminate.
  - intros D x. destruct (fold a) as [z| |]; try discriminate. destruct (IHa D z eq_refl).
  - intros D x. destruct (fold a) as [z| |]; try discriminate. destruct (IHa D z eq_refl).
Qed.
End P.
