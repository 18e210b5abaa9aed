(* Character classes: where the generated byte ranges stand for exactly the characters of the class, and the tables. *)
From Verif Require Import Base Regex_Model Regex_Spec Regex_Comp Regex_Rng Regex_Gen.
Open Scope nat_scope.

(* a range whose code is exact: of ASCII characters, or of characters that differ in the last byte only *)
Definition exactrange (r : N * N) : Prop := (fst r <= snd r)%N /\ (snd r < 0x200000)%N /\ ((snd r < 0x80)%N \/ (fst r / 64 = snd r / 64)%N).
Fixpoint exactpat (t : ast) : Prop :=
  match t with
  | Alt a b | Cat a b => exactpat a /\ exactpat b
  | Star a _ | Plus a _ | Quest a | Cap _ a => exactpat a
  | Ranges rl => Forall exactrange rl
  | _ => True
  end.

Definition lead (c : N) : list N :=
  if (c <? 0x800)%N then [0xc0 + c / 64]%N
  else if (c <? 0x10000)%N then [0xe0 + c / 4096; 0x80 + c / 64 mod 64]%N
  else [0xf0 + c / 262144; 0x80 + c / 4096 mod 64; 0x80 + c / 64 mod 64]%N.
Lemma utf8_split c : (0x80 <= c)%N -> Utf_Spec.utf8 c = lead c ++ [0x80 + c mod 64]%N.
Proof.
  intros C. unfold Utf_Spec.utf8, lead. destruct (N.ltb_spec c 0x80); [lia|]. repeat match goal with |- context [(?a <? ?b)%N] => destruct (N.ltb_spec a b) end; reflexivity.
Qed.
Lemma lead_same c d : (c / 64 = d / 64)%N -> lead c = lead d.
Proof.
  intros E. assert (E1 : (c / 4096 = d / 4096)%N) by (change 4096%N with (64 * 64)%N; rewrite <- !N.div_div by lia; congruence).
  assert (E2 : (c / 262144 = d / 262144)%N) by (change 262144%N with (64 * 4096)%N; rewrite <- !N.div_div by lia; congruence).
  assert (Q : forall k, (c < 64 * k <-> d < 64 * k)%N). { intros k. pose proof (N.div_mod c 64 ltac:(lia)). pose proof (N.div_mod d 64 ltac:(lia)). pose proof (N.mod_lt c 64 ltac:(lia)). pose proof (N.mod_lt d 64 ltac:(lia)). rewrite E in *. nia. }
  pose proof (Q 32%N) as Q1. pose proof (Q 1024%N) as Q2. change (64 * 32)%N with 0x800%N in Q1. change (64 * 1024)%N with 0x10000%N in Q2.
  unfold lead. rewrite E1, E2, E. destruct (N.ltb_spec c 0x800), (N.ltb_spec d 0x800); try tauto; try lia; destruct (N.ltb_spec c 0x10000), (N.ltb_spec d 0x10000); try tauto; lia.
Qed.
Lemma within_same pre : forall a b w, within (pre ++ [a]) (pre ++ [b]) w <-> exists x, w = pre ++ [x] /\ (a <= x <= b)%N.
Proof.
  induction pre as [|y pre IH]; intros a b w; cbn.
  - destruct w as [|x [|x2 w]]; cbn; split; try tauto; try (intros (x' & E & _); discriminate).
    + intros (A & _). exists x. auto.
    + intros (x' & E & A). injection E as ->. auto.
  - destruct w as [|x w]; [split; [tauto|intros (x' & E & _); discriminate]|]. rewrite IH. split.
    + intros (A & x' & -> & B). assert (x = y) as -> by lia. exists x'. auto.
    + intros (x' & E & B). injection E as -> ->. split; [lia|]. eauto.
Qed.
Lemma parts_same r : length (enc (fst r)) = length (enc (snd r)) -> rangeparts r = [(enc (fst r), enc (snd r))].
Proof. intros E. unfold rangeparts. rewrite E, Nat.sub_diag. reflexivity. Qed.
Lemma exact_range r w : exactrange r -> ((exists p, In p (rangeparts r) /\ within (fst p) (snd p) w) <-> exists c, (fst r <= c <= snd r)%N /\ w = Utf_Spec.utf8 c).
Proof.
  destruct r as [lo hi]. cbn [fst snd]. unfold exactrange. cbn [fst snd]. intros (Le & Hi & X).
  assert (Ps : (hi < 0x80)%N \/ ((0x80 <= lo)%N /\ (lo / 64 = hi / 64)%N)).
  { destruct X as [X|X]; auto. destruct (N.lt_ge_cases hi 0x80); auto. right. split; auto.
    pose proof (N.div_mod lo 64 ltac:(lia)). pose proof (N.div_mod hi 64 ltac:(lia)). pose proof (N.mod_lt lo 64 ltac:(lia)). pose proof (N.mod_lt hi 64 ltac:(lia)). rewrite X in *. nia. }
  clear X. destruct Ps as [A|[A E]].
  - assert (U : forall c, (c < 0x80)%N -> Utf_Spec.utf8 c = [c]) by (intros c C; unfold Utf_Spec.utf8; destruct (N.ltb_spec c 0x80); [auto|lia]).
    rewrite parts_same by (cbn [fst snd]; rewrite !enc_utf8, !U by lia; reflexivity). cbn [fst snd]. rewrite !enc_utf8, !U by lia. split.
    + intros (p & [<-|[]] & W). cbn [fst snd] in W. apply (within_same []) in W as (x & -> & B). exists x. split; auto. rewrite U by lia. reflexivity.
    + intros (c & B & ->). exists ([lo], [hi]). split; [left; auto|]. cbn [fst snd]. apply (within_same []). exists c. rewrite U by lia. auto.
  - assert (El : enc lo = lead lo ++ [0x80 + lo mod 64]%N) by (rewrite enc_utf8, utf8_split by lia; auto).
    assert (Eh : enc hi = lead lo ++ [0x80 + hi mod 64]%N) by (rewrite enc_utf8, utf8_split by lia; rewrite (lead_same lo hi E); auto).
    rewrite parts_same by (cbn [fst snd]; rewrite El, Eh, !app_length; reflexivity). cbn [fst snd]. rewrite El, Eh.
    pose proof (N.div_mod lo 64 ltac:(lia)). pose proof (N.div_mod hi 64 ltac:(lia)). pose proof (N.mod_lt lo 64 ltac:(lia)). pose proof (N.mod_lt hi 64 ltac:(lia)). split.
    + intros (p & [<-|[]] & W). cbn [fst snd] in W. apply within_same in W as (x & -> & B). exists (64 * (lo / 64) + (x - 0x80))%N.
      assert (Dv : ((64 * (lo / 64) + (x - 0x80)) / 64 = lo / 64)%N) by (symmetry; apply N.div_unique with (r := (x - 0x80)%N); lia).
      assert (Mo : ((64 * (lo / 64) + (x - 0x80)) mod 64 = x - 0x80)%N) by (symmetry; apply N.mod_unique with (q := (lo / 64)%N); lia).
      split; [rewrite E in *; lia|]. rewrite utf8_split by lia. rewrite Mo, (lead_same _ lo Dv). f_equal. f_equal. lia.
    + intros (c & B & ->). eexists. split; [left; reflexivity|]. cbn [fst snd]. apply within_same. exists (0x80 + c mod 64)%N.
      pose proof (N.div_mod c 64 ltac:(lia)). pose proof (N.mod_lt c 64 ltac:(lia)). assert (Ec : (c / 64 = lo / 64)%N).
      { apply N.le_antisymm; [rewrite E; apply N.div_le_mono; lia|apply N.div_le_mono; lia]. }
      rewrite utf8_split by lia. rewrite (lead_same _ _ Ec). split; auto. rewrite Ec in *. rewrite E in *. lia.
Qed.
Lemma exact_class rl w : Forall exactrange rl -> (bytecls rl w <-> encoded rl w).
Proof.
  intros F. rewrite Forall_forall in F. unfold bytecls, encoded, inclass. split.
  - intros (p & I & W). apply in_concat in I as (l & I & Ip). apply in_map_iff in I as (r & <- & Ir). destruct (proj1 (exact_range r w (F _ Ir))) as (c & B & E); [eauto|]. exists c. split; auto. exists r. auto.
  - intros (c & (r & Ir & B) & E). destruct (proj2 (exact_range r w (F _ Ir))) as (p & Ip & W); [eauto|]. exists p. split; auto. apply in_concat. exists (rangeparts r). split; auto. apply in_map. auto.
Qed.
Lemma exact_ok t : exactpat t -> forall isword s i g j g', (matches isword bytecls s t i g j g' <-> matches isword encoded s t i g j g').
Proof.
  intros X isword s i g j g'. split; intros M; induction M; cbn in X; try tauto.
  all: try (destruct X; now (constructor; auto)).
  all: try (now (constructor; auto)).
  all: try (destruct X; now (eapply m_cat; eauto)).
  all: try (now (eapply m_star; eauto)).
  all: try (now (eapply m_plus; eauto)).
  all: try (destruct X; now (apply m_altr; auto)).
  all: try (now (apply m_quest; auto)).
  all: try (now (apply m_ranges; [apply exact_class; auto|auto])).
Qed.

(* ---- groups do not influence where a pattern matches ---- *)
Lemma matches_any isword cls s t i g j g' : matches isword cls s t i g j g' -> forall h, exists h', matches isword cls s t i h j h'.
Proof.
  induction 1; intros h.
  - destruct (IHmatches h) as (h' & M). exists h'. apply m_altl; auto.
  - destruct (IHmatches h) as (h' & M). exists h'. apply m_altr; auto.
  - destruct (IHmatches1 h) as (h1 & M1). destruct (IHmatches2 h1) as (h2 & M2). exists h2. eapply m_cat; eauto.
  - exists h. constructor.
  - destruct (IHmatches1 h) as (h1 & M1). destruct (IHmatches2 h1) as (h2 & M2). exists h2. eapply m_star; eauto.
  - destruct (IHmatches1 h) as (h1 & M1). destruct (IHmatches2 h1) as (h2 & M2). exists h2. eapply m_plus; eauto.
  - exists h. constructor.
  - destruct (IHmatches h) as (h' & M). exists h'. apply m_quest; auto.
  - exists h. constructor; auto.
  - exists h. constructor; auto.
  - destruct (IHmatches (setlo h m i)) as (h' & M). eexists. apply m_cap; eauto.
  - exists h. constructor; auto.
  - exists h. constructor; auto.
  - exists h. constructor; auto.
  - exists h. constructor; auto.
Qed.

(* ---- a pattern without anchors matches at the same places in a suffix ---- *)
Fixpoint noanchor (t : ast) : Prop :=
  match t with
  | Alt a b | Cat a b => noanchor a /\ noanchor b
  | Star a _ | Plus a _ | Quest a | Cap _ a => noanchor a
  | Chr _ | Ranges _ => True
  | _ => False
  end.
Lemma stands_skip s d i w : d <= length s -> (stands (skipn d s) i w <-> stands s (d + i) w).
Proof.
  intros L. split.
  - intros (pre & post & E & Lp). exists (firstn d s ++ pre), post. rewrite <- app_assoc, <- E, firstn_skipn. split; auto. rewrite app_length, firstn_length_le by lia. lia.
  - intros (pre & post & E & Lp). exists (skipn d pre), post. split; [|rewrite skipn_length; lia].
    rewrite E, skipn_app. replace (d - length pre) with 0 by lia. reflexivity.
Qed.
Lemma skip_to isword cls s d t i g j g' : d <= length s -> matches isword cls (skipn d s) t i g j g' -> noanchor t -> forall h, exists h', matches isword cls s t (d + i) h (d + j) h'.
Proof.
  intros L M. induction M; cbn; intros X h; try tauto.
  - destruct X as [X Y]. destruct (IHM X h) as (h' & M'). exists h'. apply m_altl; auto.
  - destruct X as [X Y]. destruct (IHM Y h) as (h' & M'). exists h'. apply m_altr; auto.
  - destruct X as [X Y]. destruct (IHM1 X h) as (h1 & M1'). destruct (IHM2 Y h1) as (h2 & M2'). exists h2. eapply m_cat; eauto.
  - exists h. constructor.
  - destruct (IHM1 X h) as (h1 & M1'). destruct (IHM2 X h1) as (h2 & M2'). exists h2. eapply m_star; eauto.
  - destruct (IHM1 X h) as (h1 & M1'). destruct (IHM2 X h1) as (h2 & M2'). exists h2. eapply m_plus; eauto.
  - exists h. constructor.
  - destruct (IHM X h) as (h' & M'). exists h'. apply m_quest; auto.
  - exists h. rewrite Nat.add_assoc. constructor. apply stands_skip; auto.
  - exists h. rewrite Nat.add_assoc. constructor; auto. apply stands_skip; auto.
  - destruct (IHM X (setlo h m (d + i))) as (h' & M'). eexists. apply m_cap; eauto.
Qed.
Lemma skip_from isword cls s d t i g j g' : d <= length s -> matches isword cls s t i g j g' -> noanchor t -> d <= i -> i <= j /\ forall h, exists h', matches isword cls (skipn d s) t (i - d) h (j - d) h'.
Proof.
  intros L M. induction M; cbn; intros X D; try tauto.
  - destruct X as [X Y]. destruct (IHM X D) as (Le & Q). split; auto. intros h. destruct (Q h) as (h' & M'). exists h'. apply m_altl; auto.
  - destruct X as [X Y]. destruct (IHM Y D) as (Le & Q). split; auto. intros h. destruct (Q h) as (h' & M'). exists h'. apply m_altr; auto.
  - destruct X as [X Y]. destruct (IHM1 X D) as (Le1 & Q1). destruct (IHM2 Y ltac:(lia)) as (Le2 & Q2). split; [lia|]. intros h. destruct (Q1 h) as (h1 & M1'). destruct (Q2 h1) as (h2 & M2'). exists h2. eapply m_cat; eauto.
  - split; auto. intros h. exists h. constructor.
  - destruct (IHM1 X D) as (Le1 & Q1). destruct (IHM2 X ltac:(lia)) as (Le2 & Q2). split; [lia|]. intros h. destruct (Q1 h) as (h1 & M1'). destruct (Q2 h1) as (h2 & M2'). exists h2. eapply m_star; eauto.
  - destruct (IHM1 X D) as (Le1 & Q1). destruct (IHM2 X ltac:(lia)) as (Le2 & Q2). split; [lia|]. intros h. destruct (Q1 h) as (h1 & M1'). destruct (Q2 h1) as (h2 & M2'). exists h2. eapply m_plus; eauto.
  - split; auto. intros h. exists h. constructor.
  - destruct (IHM X D) as (Le & Q). split; auto. intros h. destruct (Q h) as (h' & M'). exists h'. apply m_quest; auto.
  - split; [lia|]. intros h. exists h. replace (i + length (Utf_Spec.utf8 c) - d) with (i - d + length (Utf_Spec.utf8 c)) by lia. constructor. apply stands_skip; auto. replace (d + (i - d)) with i by lia. auto.
  - split; [lia|]. intros h. exists h. replace (i + length w - d) with (i - d + length w) by lia. constructor; auto. apply stands_skip; auto. replace (d + (i - d)) with i by lia. auto.
  - destruct (IHM X D) as (Le & Q). split; auto. intros h. destruct (Q (setlo h m (i - d))) as (h' & M'). eexists. apply m_cap; eauto.
Qed.
Lemma matchat_skip isword t s d j : noanchor t -> d <= length s -> (matchat isword t (skipn d s) 0 j <-> matchat isword t s d (d + j)).
Proof.
  intros X L. unfold matchat. split; intros (g & M).
  - destruct (skip_to _ _ _ _ _ _ _ _ _ L M X nogroups) as (h & M'). rewrite Nat.add_0_r in M'. exists h. exact M'.
  - destruct (skip_from _ _ _ d _ _ _ _ _ L M X ltac:(lia)) as (_ & Q). rewrite Nat.sub_diag in Q. replace (d + j - d) with j in Q by lia. apply Q.
Qed.

(* ---- the tables ---- *)
(* sorted by first character, ends increasing too *)
Fixpoint ordered (rl : list (N * N)) : Prop :=
  match rl with
  | [] => True
  | r :: rl => (fst r <= snd r)%N /\ (snd r < 0x200000)%N /\ match rl with [] => True | r' :: _ => (fst r <= fst r')%N /\ (snd r <= snd r')%N end /\ ordered rl
  end.
Lemma merge_ok rl c : forall lo hi, (lo <= hi)%N -> (hi < 0x200000)%N -> (match rl with [] => True | r' :: _ => (lo <= fst r')%N /\ (hi <= snd r')%N end) -> ordered rl ->
  (inclass (mergeloop rl lo hi) c <-> (lo <= c <= hi)%N \/ inclass rl c).
Proof.
  unfold inclass. induction rl as [|[a b] rl IH]; intros lo hi Le Hi Nx Or; cbn [mergeloop fst snd] in *.
  - split; [intros (r & [<-|[]] & B); auto|intros [B|(r & [] & _)]; exists (lo, hi); split; [left; auto|auto]].
  - destruct Or as (O1 & O2 & O3 & O4). destruct Nx as [N1 N2]. cbn [fst snd] in *. rewrite N.mod_small by (change (2 ^ 32)%N with 4294967296%N; lia). destruct (N.leb_spec a (hi + 1)) as [Lm|Lm].
    + rewrite IH; auto; [|lia|destruct rl; auto; lia]. split.
      * intros [B|(r & I & B)]; [|right; exists r; split; [right; auto|auto]]. destruct (N.le_gt_cases c hi); [left; lia|right; exists (a, b); split; [left; auto|cbn; lia]].
      * intros [B|(r & [<-|I] & B)]; [left; lia|cbn in B; left; lia|right; eauto].
    + split.
      * intros (r & [<-|I] & B); [left; auto|]. destruct (proj1 (IH a b O1 O2 ltac:(destruct rl; auto) O4)) as [X|(r' & I' & B')]; [eauto|right; exists (a, b); split; [left; auto|auto]|right; exists r'; split; [right; auto|auto]].
      * intros [B|(r & I & B)]; [exists (lo, hi); split; [left; auto|auto]|]. destruct (proj2 (IH a b O1 O2 ltac:(destruct rl; auto) O4)) as (r' & I' & B'); [destruct I as [<-|I]; [left; auto|right; eauto]|]. exists r'. split; [right; auto|auto].
Qed.
(* sorted, with a gap between neighbours, nothing at either end *)
Fixpoint gapped (from : N) (rl : list (N * N)) : Prop :=
  match rl with
  | [] => True
  | r :: rl => (from < fst r)%N /\ (fst r <= snd r)%N /\ (snd r < Maxcharval)%N /\ gapped (snd r + 1) rl
  end.
Lemma negate_ok rl c : forall start nxt, (start <= Maxcharval)%N -> (rl = [] -> start = nxt + 1)%N -> gapped start rl ->
  (inclass (negateloop rl start nxt) c <-> (start <= c <= Maxcharval)%N /\ ~ inclass rl c).
Proof.
  unfold inclass. induction rl as [|[a b] rl IH]; intros start nxt S1 E G; cbn [negateloop fst snd gapped] in *.
  - rewrite (N.mod_small (nxt + 1)) by (rewrite <- E by auto; unfold Maxcharval in *; change (2 ^ 32)%N with 4294967296%N; lia). rewrite <- E by auto. split.
    + intros (r & [<-|[]] & B). split; [auto|]. intros (r & [] & _).
    + intros (B & _). eexists. split; [left; reflexivity|auto].
  - destruct G as (G1 & G2 & G3 & G4). unfold Maxcharval in *. change (2 ^ 32)%N with 4294967296%N.
    assert (A1 : ((a + (4294967296 - 1)) mod 4294967296 = a - 1)%N).
    { replace (a + (4294967296 - 1))%N with ((a - 1) + 1 * 4294967296)%N by lia. rewrite N.mod_add by lia. apply N.mod_small. lia. }
    rewrite A1. rewrite (N.mod_small (b + 1)) by lia.
    assert (G' : forall r, In r rl -> (b + 1 < fst r)%N). { clear - G4. revert G4. generalize (b + 1)%N. induction rl as [|[x y] rl IH]; cbn; intros f [] r; [tauto..|]. destruct H0 as (? & ? & G). intros [<-|I]; [auto|]. specialize (IH _ G _ I). cbn in *. lia. }
    specialize (IH (b + 1)%N b ltac:(lia) ltac:(auto) G4). split.
    + intros (r & [<-|I] & B); cbn [fst snd] in *.
      * split; [lia|]. intros (r & [<-|I'] & B'); cbn [fst snd] in *; [lia|]. specialize (G' _ I'). lia.
      * destruct (proj1 IH) as (X & Y); [eauto|]. split; [lia|]. intros (r' & [<-|I'] & B'); cbn [fst snd] in *; [lia|]. apply Y. eauto.
    + intros (B & Nc). destruct (N.lt_ge_cases c a); [exists (start, (a - 1)%N); split; [left; auto|cbn; lia]|].
      destruct (N.le_gt_cases c b); [exfalso; apply Nc; exists (a, b); split; [left; auto|cbn; lia]|].
      destruct (proj2 IH) as (r & I & B'); [split; [lia|intros (r & I & B'); apply Nc; exists r; split; [right; auto|auto]]|]. exists r. split; [right; auto|auto].
Qed.
