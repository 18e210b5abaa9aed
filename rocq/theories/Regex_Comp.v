(* The compiled program does what the pattern says. *)
From Verif Require Import Base Regex_Model Regex_Spec.
From Verif Require Utf_Model Utf_Spec Utf_Proofs.
Open Scope nat_scope.

(* ---- what the code does with classes ---- *)
Fixpoint within (lo hi w : list N) : Prop :=
  match lo, hi, w with
  | [], [], [] => True
  | l :: lo, h :: hi, x :: w => (l <= x <= h)%N /\ within lo hi w
  | _, _, _ => False
  end.
Definition bytecls (rl : list (N * N)) (w : list N) : Prop := exists p, In p (concat (map rangeparts rl)) /\ within (fst p) (snd p) w.

Fixpoint lang (w : list N) (t : trie) : Prop :=
  let '(Node e sub) := t in
  match w with
  | [] => e = true
  | x :: w => exists a b t', In (a, b, t') sub /\ (a <= x <= b)%N /\ lang w t'
  end.
(* every path of the trie has length n *)
Fixpoint full (n : nat) (t : trie) : Prop :=
  let '(Node e sub) := t in
  match n with
  | O => e = true /\ sub = []
  | S n => e = false /\ sub <> [] /\ forall a b t', In (a, b, t') sub -> full n t'
  end.

Lemma within_len lo : forall hi w, within lo hi w -> length lo = length hi /\ length w = length hi.
Proof. induction lo as [|l lo IH]; intros [|h hi] [|x w] H; cbn in *; try tauto. destruct H as [_ H]. apply IH in H. lia. Qed.

Lemma rtinsert_ok n : forall lo hi t, length lo = n -> length hi = n -> (t = Node false [] \/ full n t) ->
  exists t', rtinsert lo hi t = Some t' /\ full n t' /\ (forall w, lang w t' <-> lang w t \/ within lo hi w).
Proof.
  induction n as [|n IH]; intros lo hi [e sub] L H F.
  - destruct lo, hi; try discriminate. exists (Node true sub). cbn. split; [reflexivity|]. destruct F as [F|F]; [inversion F; subst|destruct F as [-> ->]].
    + split; [auto|]. intros [|x w]; cbn; [tauto|]. split; [intros (? & ? & ? & [] & _)|intros [(? & ? & ? & [] & _)|[]]].
    + split; [auto|]. intros [|x w]; cbn; tauto.
  - destruct lo as [|l lo], hi as [|h hi]; try discriminate. injection L as L. injection H as H.
    assert (Fe : e = false) by (destruct F as [F|F]; [congruence|apply F]). subst e.
    assert (Fs : forall a b t', In (a, b, t') sub -> full n t') by (destruct F as [F|F]; [inversion F; intros ? ? ? []|apply F]). clear F.
    cbn [rtinsert].
    assert (New : exists t', rtinsert lo hi (Node false []) = Some t' /\ full n t' /\ (forall w, lang w t' <-> within lo hi w)).
    { destruct (IH lo hi (Node false []) L H (or_introl eq_refl)) as (t' & E & Ft & La). exists t'. split; auto. split; auto. intros w. rewrite La.
      split; [intros [X|X]; auto|auto]. destruct w; cbn in X; [discriminate|]. destruct X as (? & ? & ? & [] & _). }
    destruct New as (tn & En & Fn & Ln).
    assert (App : full (S n) (Node false (sub ++ [(l, h, tn)])) /\ forall w, lang w (Node false (sub ++ [(l, h, tn)])) <-> lang w (Node false sub) \/ within (l :: lo) (h :: hi) w).
    { split.
      - cbn. split; [auto|]. split; [destruct sub; discriminate|]. intros a b t' I. apply in_app_or in I as [I|[I|[]]]; [eauto|]. inversion I; subst; auto.
      - intros [|x w]; cbn; [tauto|]. split.
        + intros (a & b & t' & I & R & W). apply in_app_or in I as [I|[I|[]]]; [left; eauto 8|]. inversion I; subst. right. split; auto. apply Ln; auto.
        + intros [(a & b & t' & I & R & W)|[R W]]; [exists a, b, t'; split; [apply in_or_app; auto|auto]|].
          exists l, h, tn. split; [apply in_or_app; cbn; auto|]. split; auto. apply Ln; auto. }
    destruct (rev sub) as [|[[a b] t0] front] eqn:R.
    + assert (sub = []) by (rewrite <- (rev_involutive sub), R; reflexivity). subst sub. rewrite En. eexists. split; [reflexivity|]. exact App.
    + assert (S0 : sub = rev front ++ [(a, b, t0)]) by (rewrite <- (rev_involutive sub), R; reflexivity).
      destruct ((a =? l)%N && (b =? h)%N) eqn:Q; [|rewrite En; eexists; split; [reflexivity|exact App]].
      apply andb_prop in Q as [Qa Qb]. apply N.eqb_eq in Qa, Qb. subst a b.
      destruct (IH lo hi t0 L H) as (t1 & E1 & F1 & L1). { right. apply (Fs l h). rewrite S0. apply in_or_app. cbn. auto. }
      rewrite E1. eexists. split; [reflexivity|]. subst sub. split.
      * cbn. split; [auto|]. split; [destruct (rev front); discriminate|]. intros a b t' I. apply in_app_or in I as [I|[I|[]]].
        -- apply (Fs a b). apply in_or_app. auto.
        -- inversion I; subst; auto.
      * intros [|x w]; cbn; [tauto|]. split.
        -- intros (a & b & t' & I & Rg & W). apply in_app_or in I as [I|[I|[]]].
           ++ left. exists a, b, t'. split; auto. apply in_or_app. auto.
           ++ inversion I; subst. apply L1 in W as [W|W]; [left; exists a, b, t0; split; auto; apply in_or_app; cbn; auto|auto].
        -- intros [(a & b & t' & I & Rg & W)|[Rg W]].
           ++ apply in_app_or in I as [I|[I|[]]]; [exists a, b, t'; split; auto; apply in_or_app; auto|].
              inversion I; subst. exists a, b, t1. split; [apply in_or_app; cbn; auto|]. split; auto. apply L1. auto.
           ++ exists l, h, t1. split; [apply in_or_app; cbn; auto|]. split; auto. apply L1. auto.
Qed.

(* the root: below a first range, all paths are as long as its first byte says *)
Definition leadlen (b : N) : nat := if (b <? 0x80)%N then 1 else if (b <? 0xe0)%N then 2 else if (b <? 0xf0)%N then 3 else 4.
Definition rootok (sub : list (N * N * trie)) : Prop := forall a b t', In (a, b, t') sub -> full (leadlen a - 1) t'.
Definition partok (p : list N * list N) : Prop := length (fst p) = length (snd p) /\ exists l lo, fst p = l :: lo /\ length lo = leadlen l - 1.

Lemma rtinsert_root p sub : rootok sub -> partok p ->
  exists sub', rtinsert (fst p) (snd p) (Node false sub) = Some (Node false sub') /\ rootok sub' /\ sub' <> [] /\
    (forall w, lang w (Node false sub') <-> lang w (Node false sub) \/ within (fst p) (snd p) w).
Proof.
  intros Ro (Le & l & lo & El & Ll). destruct p as [plo phi]. cbn [fst snd] in *. subst plo. destruct phi as [|h hi]; [discriminate|]. injection Le as Le.
  cbn [rtinsert].
  assert (New : exists t', rtinsert lo hi (Node false []) = Some t' /\ full (leadlen l - 1) t' /\ (forall w, lang w t' <-> within lo hi w)).
  { destruct (rtinsert_ok (leadlen l - 1) lo hi (Node false []) Ll ltac:(lia) (or_introl eq_refl)) as (t' & E & Ft & La). exists t'. split; auto. split; auto. intros w. rewrite La.
    split; [intros [X|X]; auto|auto]. destruct w; cbn in X; [discriminate|]. destruct X as (? & ? & ? & [] & _). }
  destruct New as (tn & En & Fn & Ln).
  assert (App : rootok (sub ++ [(l, h, tn)]) /\ sub ++ [(l, h, tn)] <> [] /\ forall w, lang w (Node false (sub ++ [(l, h, tn)])) <-> lang w (Node false sub) \/ within (l :: lo) (h :: hi) w).
  { split; [|split; [destruct sub; discriminate|]].
    - intros a b t' I. apply in_app_or in I as [I|[I|[]]]; [eapply Ro; eauto|]. inversion I; subst; auto.
    - intros [|x w]; cbn; [tauto|]. split.
      + intros (a & b & t' & I & R & W). apply in_app_or in I as [I|[I|[]]]; [left; eauto 8|]. inversion I; subst. right. split; auto. apply Ln; auto.
      + intros [(a & b & t' & I & R & W)|[R W]]; [exists a, b, t'; split; [apply in_or_app; auto|auto]|].
        exists l, h, tn. split; [apply in_or_app; cbn; auto|]. split; auto. apply Ln; auto. }
  destruct (rev sub) as [|[[a b] t0] front] eqn:R.
  - assert (sub = []) by (rewrite <- (rev_involutive sub), R; reflexivity). subst sub. rewrite En. eexists. split; [reflexivity|]. exact App.
  - assert (S0 : sub = rev front ++ [(a, b, t0)]) by (rewrite <- (rev_involutive sub), R; reflexivity).
    destruct ((a =? l)%N && (b =? h)%N) eqn:Q; [|rewrite En; eexists; split; [reflexivity|exact App]].
    apply andb_prop in Q as [Qa Qb]. apply N.eqb_eq in Qa, Qb. subst a b.
    destruct (rtinsert_ok (leadlen l - 1) lo hi t0 Ll ltac:(lia)) as (t1 & E1 & F1 & L1). { right. apply (Ro l h). rewrite S0. apply in_or_app. cbn. auto. }
    rewrite E1. eexists. split; [reflexivity|]. subst sub. split; [|split; [destruct (rev front); discriminate|]].
    + intros a b t' I. apply in_app_or in I as [I|[I|[]]].
      * apply (Ro a b). apply in_or_app. auto.
      * inversion I; subst; auto.
    + intros [|x w]; cbn; [tauto|]. split.
      * intros (a & b & t' & I & Rg & W). apply in_app_or in I as [I|[I|[]]].
        -- left. exists a, b, t'. split; auto. apply in_or_app. auto.
        -- inversion I; subst. apply L1 in W as [W|W]; [left; exists a, b, t0; split; auto; apply in_or_app; cbn; auto|auto].
      * intros [(a & b & t' & I & Rg & W)|[Rg W]].
        -- apply in_app_or in I as [I|[I|[]]]; [exists a, b, t'; split; auto; apply in_or_app; auto|].
           inversion I; subst. exists a, b, t1. split; [apply in_or_app; cbn; auto|]. split; auto. apply L1. auto.
        -- exists l, h, t1. split; [apply in_or_app; cbn; auto|]. split; auto. apply L1. auto.
Qed.
Lemma rtinsertall_ok ps : forall sub, rootok sub -> Forall partok ps ->
  exists sub', rtinsertall ps (Node false sub) = Some (Node false sub') /\ rootok sub' /\ (ps <> [] \/ sub <> [] -> sub' <> []) /\
    (forall w, lang w (Node false sub') <-> lang w (Node false sub) \/ exists p, In p ps /\ within (fst p) (snd p) w).
Proof.
  induction ps as [|p ps IH]; intros sub Ro Fo; cbn [rtinsertall].
  - exists sub. split; [auto|]. split; [auto|]. split; [tauto|]. intros w. split; [auto|intros [X|(? & [] & _)]; auto].
  - inversion Fo as [|? ? P Fo']; subst. destruct p as [l h]. destruct (rtinsert_root (l, h) sub Ro P) as (s1 & E1 & R1 & N1 & L1). cbn [fst snd] in *. rewrite E1.
    destruct (IH s1 R1 Fo') as (s2 & E2 & R2 & N2 & L2). exists s2. split; [auto|]. split; [auto|]. split; [auto|]. intros w. rewrite L2, L1. split.
    + intros [[X|X]|(p & I & W)]; [auto|right; exists (l, h); cbn; auto|right; exists p; cbn; auto].
    + intros [X|(p & [<-|I] & W)]; [auto|cbn in W; auto|right; eauto].
Qed.

(* ---- the parts of a range ---- *)
Lemma enc_utf8 c : (c < 0x200000)%N -> enc c = Utf_Spec.utf8 c.
Proof.
  intros C. unfold enc. pose proof (Utf_Proofs.charlen_utf8 c C) as L. assert (L4 : Utf_Model.charlen c <= 4).
  { unfold Utf_Model.charlen. repeat match goal with |- context [(?a <? ?b)%N] => destruct (a <? b)%N end; lia. }
  rewrite Utf_Proofs.encode_spec; auto. rewrite Nat2Z.id. rewrite firstn_app, Nat.sub_diag, firstn_all. cbn [firstn]. apply app_nil_r.
Qed.
Definition charok (c : N) : Prop := (c < 0x200000)%N.
Lemma utf8_lead c : charok c -> exists l lo, Utf_Spec.utf8 c = l :: lo /\ length lo = leadlen l - 1 /\ length (Utf_Spec.utf8 c) <= 4.
Proof.
  unfold charok. intros C. unfold Utf_Spec.utf8.
  destruct (N.ltb_spec c 0x80). { do 2 eexists. split; [reflexivity|]. unfold leadlen. replace (c <? 0x80)%N with true by (symmetry; apply N.ltb_lt; lia). cbn; lia. }
  assert (D : forall k, (0 < k)%N -> (c / k <= c)%N) by (intros; apply N.div_le_upper_bound; nia).
  destruct (N.ltb_spec c 0x800).
  { do 2 eexists. split; [reflexivity|]. assert (c / 64 < 32)%N by (apply N.div_lt_upper_bound; lia). unfold leadlen.
    replace (0xc0 + c / 64 <? 0x80)%N with false by (symmetry; apply N.ltb_ge; lia). replace (0xc0 + c / 64 <? 0xe0)%N with true by (symmetry; apply N.ltb_lt; lia). cbn; lia. }
  destruct (N.ltb_spec c 0x10000).
  { do 2 eexists. split; [reflexivity|]. assert (c / 4096 < 16)%N by (apply N.div_lt_upper_bound; lia). unfold leadlen.
    replace (0xe0 + c / 4096 <? 0x80)%N with false by (symmetry; apply N.ltb_ge; lia). replace (0xe0 + c / 4096 <? 0xe0)%N with false by (symmetry; apply N.ltb_ge; lia).
    replace (0xe0 + c / 4096 <? 0xf0)%N with true by (symmetry; apply N.ltb_lt; lia). cbn; lia. }
  do 2 eexists. split; [reflexivity|]. unfold leadlen.
  replace (0xf0 + c / 262144 <? 0x80)%N with false by (symmetry; apply N.ltb_ge; lia). replace (0xf0 + c / 262144 <? 0xe0)%N with false by (symmetry; apply N.ltb_ge; lia).
  replace (0xf0 + c / 262144 <? 0xf0)%N with false by (symmetry; apply N.ltb_ge; lia). cbn; lia.
Qed.
Lemma utf8_mono c d : charok d -> (c <= d)%N -> length (Utf_Spec.utf8 c) <= length (Utf_Spec.utf8 d).
Proof.
  intros D L. unfold Utf_Spec.utf8. repeat match goal with |- context [(?a <? ?b)%N] => destruct (N.ltb_spec a b) end; cbn; lia.
Qed.
Lemma bound_ok i fill : 1 <= i <= 4 -> (fill = 0 \/ fill = 0xff)%N -> exists l lo, bound i fill = l :: lo /\ length lo = leadlen l - 1 /\ length (bound i fill) = i.
Proof.
  intros I F. assert (i = 1 \/ i = 2 \/ i = 3 \/ i = 4) as [-> | [-> | [-> | ->]]] by lia; destruct F as [-> | ->]; do 2 eexists; (split; [reflexivity|split; reflexivity]).
Qed.
Lemma splitr_ok k : forall i lo hi, length lo = i -> length hi = i + k -> 1 <= i -> i + k <= 4 -> (exists l lo', lo = l :: lo' /\ length lo' = leadlen l - 1) ->
  Forall partok (splitr k i lo hi).
Proof.
  induction k as [|k IH]; intros i lo hi L H I M Le; cbn [splitr].
  - constructor; [|constructor]. split; cbn; [lia|]. auto.
  - constructor.
    + split; cbn; [|auto]. destruct (bound_ok i 0xff ltac:(lia) ltac:(auto)) as (? & ? & _ & _ & B). lia.
    + destruct (bound_ok (i + 1) 0 ltac:(lia) ltac:(auto)) as (l & lo' & B1 & B2 & B3). apply IH; try lia; eauto.
Qed.
Definition rangeok (r : N * N) : Prop := (fst r <= snd r)%N /\ charok (snd r).
Lemma rangeparts_ok r : rangeok r -> Forall partok (rangeparts r).
Proof.
  intros (L & C). assert (C' : charok (fst r)) by (unfold charok in *; lia). unfold rangeparts. rewrite !enc_utf8 by auto.
  pose proof (utf8_mono _ _ C L). destruct (utf8_lead _ C') as (l & lo & E & El & B). destruct (utf8_lead _ C) as (_ & _ & _ & _ & B').
  pose proof (Utf_Proofs.utf8_nonempty (fst r)). apply splitr_ok; try lia. exists l, lo. auto.
Qed.
Lemma parts_ok rl : Forall rangeok rl -> Forall partok (concat (map rangeparts rl)).
Proof. induction 1; cbn; [constructor|]. apply Forall_app. split; auto. apply rangeparts_ok; auto. Qed.
Lemma parts_nonempty rl : rl <> [] -> concat (map rangeparts rl) <> [].
Proof.
  destruct rl as [|r rl]; [congruence|]. intros _. cbn. unfold rangeparts. destruct (length (enc (snd r)) - length (enc (fst r))); cbn; discriminate.
Qed.

(* ---- the machine ---- *)
Section Machine.
Variable isword : list N -> bool.
Variable P : list inst.
Variable s : list N.

Inductive cstep : nat * nat * list group -> nat * nat * list group -> Prop :=
| c_byte pc i g b : nth_error P pc = Some (Ibyte b) -> nth_error s i = Some b -> cstep (pc, i, g) (pc + 1, i + 1, g)
| c_range pc i g lo hi b : nth_error P pc = Some (Irange lo hi) -> nth_error s i = Some b -> (lo <= b <= hi)%N -> cstep (pc, i, g) (pc + 1, i + 1, g)
| c_forkl pc i g l r : nth_error P pc = Some (Ifork l r) -> cstep (pc, i, g) (l, i, g)
| c_forkr pc i g l r : nth_error P pc = Some (Ifork l r) -> cstep (pc, i, g) (r, i, g)
| c_jmp pc i g d : nth_error P pc = Some (Ijmp d) -> cstep (pc, i, g) (d, i, g)
| c_lbra pc i g m : nth_error P pc = Some (Ilbra m) -> cstep (pc, i, g) (pc + 1, i, setlo g m i)
| c_rbra pc i g m : nth_error P pc = Some (Irbra m) -> cstep (pc, i, g) (pc + 1, i, sethi g m i)
| c_bol pc i g : nth_error P pc = Some Ibol -> atbol s i -> cstep (pc, i, g) (pc + 1, i, g)
| c_eol pc i g : nth_error P pc = Some Ieol -> ateol s i -> cstep (pc, i, g) (pc + 1, i, g)
| c_bow pc i g : nth_error P pc = Some Ibow -> atbow isword s i -> cstep (pc, i, g) (pc + 1, i, g)
| c_eow pc i g : nth_error P pc = Some Ieow -> ateow isword s i -> cstep (pc, i, g) (pc + 1, i, g).
Inductive path : nat -> nat * nat * list group -> nat * nat * list group -> Prop :=
| p_nil c : path 0 c c
| p_cons n c c1 c2 : cstep c c1 -> path n c1 c2 -> path (S n) c c2.

Lemma path_app n c c1 : path n c c1 -> forall m c2, path m c1 c2 -> path (n + m) c c2.
Proof. induction 1; intros; cbn; [auto|]. econstructor; eauto. Qed.
Definition reach c c' : Prop := exists n, path n c c'.
Lemma reach_refl c : reach c c. Proof. exists 0. constructor. Qed.
Lemma reach_trans a b c : reach a b -> reach b c -> reach a c.
Proof. intros (n & A) (m & B). exists (n + m). eapply path_app; eauto. Qed.
Lemma reach_step a b : cstep a b -> reach a b. Proof. intros H. exists 1. econstructor; eauto. constructor. Qed.

(* the code c stands at pc *)
Definition placed (pc : nat) (c : list inst) : Prop := forall k x, nth_error c k = Some x -> nth_error P (pc + k) = Some x.
Lemma placed_cons pc x c : placed pc (x :: c) <-> nth_error P pc = Some x /\ placed (pc + 1) c.
Proof using P. clear isword s.
  split.
  - intros H. split; [rewrite <- (Nat.add_0_r pc); apply H; reflexivity|]. intros k y K. rewrite <- Nat.add_assoc. apply (H (1 + k)). exact K.
  - intros [A B] [|k] y K; [cbn in K; injection K as <-; rewrite Nat.add_0_r; auto|]. replace (pc + S k) with (pc + 1 + k) by lia. apply B. exact K.
Qed.
Lemma placed_app pc c d : placed pc (c ++ d) <-> placed pc c /\ placed (pc + length c) d.
Proof using P. clear isword s.
  revert pc. induction c as [|x c IH]; intros pc; cbn [app length].
  - rewrite Nat.add_0_r. split; [intros H; split; auto; intros [|k] y K; discriminate|tauto].
  - rewrite !placed_cons, IH. replace (pc + 1 + length c) with (pc + S (length c)) by lia. tauto.
Qed.

(* ---- single bytes ---- *)
Lemma stands_cons i x w : stands s i (x :: w) <-> nth_error s i = Some x /\ stands s (i + 1) w.
Proof using s. clear isword P.
  split.
  - intros (pre & post & E & L). split.
    + rewrite E, nth_error_app2 by lia. rewrite L, Nat.sub_diag. reflexivity.
    + exists (pre ++ [x]), post. rewrite <- app_assoc. split; [exact E|rewrite app_length; cbn; lia].
  - intros (N1 & pre & post & E & L). destruct (exists_last (l := pre)) as (pre' & y & ->); [destruct pre; [cbn in L; lia|discriminate]|].
    rewrite app_length in L. cbn in L. exists pre', post. split; [|lia]. rewrite E in N1. rewrite <- app_assoc in *. rewrite nth_error_app2 in N1 by lia.
    replace (i - length pre') with 0 in N1 by lia. cbn in N1. injection N1 as ->. exact E.
Qed.
Lemma stands_nil i : i <= length s -> stands s i [].
Proof using s. clear isword P. intros L. exists (firstn i s), (skipn i s). cbn. rewrite firstn_skipn, firstn_length_le by lia. auto. Qed.
Lemma stands_le i w : stands s i w -> i + length w <= length s.
Proof using s. clear isword P. intros (pre & post & -> & <-). rewrite !app_length. lia. Qed.

Lemma bytes_reach w : forall pc i g, placed pc (map Ibyte w) -> stands s i w -> reach (pc, i, g) (pc + length w, i + length w, g).
Proof.
  induction w as [|x w IH]; cbn [map length]; intros pc i g Pl St; [rewrite !Nat.add_0_r; apply reach_refl|].
  apply placed_cons in Pl as [A Pl]. apply stands_cons in St as [B St]. eapply reach_trans; [apply reach_step; eapply c_byte; eauto|].
  replace (pc + S (length w)) with (pc + 1 + length w) by lia. replace (i + S (length w)) with (i + 1 + length w) by lia. auto.
Qed.
Lemma bytes_path w : forall n pc i g F j g', i <= length s -> placed pc (map Ibyte w) -> path n (pc, i, g) (F, j, g') -> ~ (pc <= F < pc + length w) ->
  exists m, m <= n /\ stands s i w /\ path m (pc + length w, i + length w, g) (F, j, g').
Proof.
  induction w as [|x w IH]; cbn [map length]; intros n pc i g F j g' Li Pl Pa Nf.
  - exists n. rewrite !Nat.add_0_r. split; auto. split; auto. apply stands_nil; auto.
  - apply placed_cons in Pl as [A Pl]. inversion Pa as [|n' ? c1 ? St Pa']; subst; [lia|].
    inversion St; subst; try congruence. assert (b = x) by congruence. subst b.
    assert (i < length s) by (apply nth_error_Some; congruence).
    destruct (fun a b => IH _ _ _ _ _ _ _ a Pl Pa' b) as (m & M & S1 & P1); [lia|lia|]. exists m. split; [lia|]. split; [apply stands_cons; auto|].
    replace (pc + S (length w)) with (pc + 1 + length w) by lia. replace (i + S (length w)) with (i + 1 + length w) by lia. auto.
Qed.

(* one step, by the instruction *)
Lemma path_first n pc i g F j g' : path n (pc, i, g) (F, j, g') -> pc <> F -> exists n' c1, n = S n' /\ cstep (pc, i, g) c1 /\ path n' c1 (F, j, g').
Proof. intros H N. inversion H; subst; [congruence|]. eauto. Qed.
Ltac inv_step := intros E H; inversion H; subst; match goal with B : nth_error P _ = Some _ |- _ => rewrite E in B; inversion B; subst end.
Lemma step_byte pc i g c1 b : nth_error P pc = Some (Ibyte b) -> cstep (pc, i, g) c1 -> nth_error s i = Some b /\ c1 = (pc + 1, i + 1, g).
Proof. inv_step. auto. Qed.
Lemma step_range pc i g c1 lo hi : nth_error P pc = Some (Irange lo hi) -> cstep (pc, i, g) c1 -> exists b, nth_error s i = Some b /\ (lo <= b <= hi)%N /\ c1 = (pc + 1, i + 1, g).
Proof. inv_step. eauto. Qed.
Lemma step_fork pc i g c1 l r : nth_error P pc = Some (Ifork l r) -> cstep (pc, i, g) c1 -> c1 = (l, i, g) \/ c1 = (r, i, g).
Proof. inv_step; auto. Qed.
Lemma step_jmp pc i g c1 d : nth_error P pc = Some (Ijmp d) -> cstep (pc, i, g) c1 -> c1 = (d, i, g).
Proof. inv_step; auto. Qed.
Lemma step_lbra pc i g c1 m : nth_error P pc = Some (Ilbra m) -> cstep (pc, i, g) c1 -> c1 = (pc + 1, i, setlo g m i).
Proof. inv_step; auto. Qed.
Lemma step_rbra pc i g c1 m : nth_error P pc = Some (Irbra m) -> cstep (pc, i, g) c1 -> c1 = (pc + 1, i, sethi g m i).
Proof. inv_step; auto. Qed.
Lemma step_bol pc i g c1 : nth_error P pc = Some Ibol -> cstep (pc, i, g) c1 -> atbol s i /\ c1 = (pc + 1, i, g).
Proof. inv_step; auto. Qed.
Lemma step_eol pc i g c1 : nth_error P pc = Some Ieol -> cstep (pc, i, g) c1 -> ateol s i /\ c1 = (pc + 1, i, g).
Proof. inv_step; auto. Qed.
Lemma step_bow pc i g c1 : nth_error P pc = Some Ibow -> cstep (pc, i, g) c1 -> atbow isword s i /\ c1 = (pc + 1, i, g).
Proof. inv_step; auto. Qed.
Lemma step_eow pc i g c1 : nth_error P pc = Some Ieow -> cstep (pc, i, g) c1 -> ateow isword s i /\ c1 = (pc + 1, i, g).
Proof. inv_step; auto. Qed.
End Machine.
